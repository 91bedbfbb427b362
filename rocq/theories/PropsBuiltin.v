(** C77: built-in predicates give exactly their relations.  C78: built-in functions on
    strings. *)
From Coq Require Import List ZArith Bool Arith Lia Sorted.
From Verif Require Import Aggregate Builtin.
Import ListNotations.

(** ** Specification *)
(** [p] is in [s] after the characters [a]. *)
Definition occurs (p s a : text) : Prop := exists b, s = a ++ p ++ b.
Definition ascii (s : text) : Prop := Forall (fun c => c < 128)%Z s.
(** No character of the string is more than once in a found range. *)
Definition apart (n i j : nat) : Prop := i + n <= j.

(** ** Integers *)
Lemma range_loop_spec : forall fuel ty curr stop, in_range ty curr = true -> in_range ty stop = true ->
  Z.to_nat (stop - curr) <= fuel ->
  exists l, range_loop fuel ty curr stop = Some l /\ (forall i, In i l <-> (curr <= i < stop)%Z) /\ StronglySorted Z.lt l.
Proof.
  induction fuel; intros ty curr stop I1 I2 L; cbn [range_loop].
  - replace (Z.leb stop curr) with true by (symmetry; apply Z.leb_le; lia).
    exists []. split; auto. split; [|constructor]. cbn. lia.
  - destruct (Z.leb_spec stop curr).
    { exists []. split; auto. split; [|constructor]. cbn. lia. }
    assert (N : in_range ty (curr + 1) = true).
    { unfold in_range in *. destruct (signed ty); apply andb_true_iff in I1, I2; apply andb_true_iff; rewrite ?Z.leb_le, ?Z.ltb_lt in *; lia. }
    rewrite N. destruct (IHfuel ty (curr + 1)%Z stop N I2 ltac:(lia)) as (l & -> & M & So).
    exists (curr :: l). split; auto. split.
    + intros i. cbn. rewrite M. lia.
    + constructor; auto. apply Forall_forall. intros i Hi. apply M in Hi. lia.
Qed.

(** [range] gives the integers from the first up to the second, each once and in order,
    and the counter does not overflow. *)
Theorem C77_range : forall ty first stop, in_range ty first = true -> in_range ty stop = true ->
  exists l, fp_range ty first stop = Some l /\ (forall i, In i l <-> (first <= i < stop)%Z) /\ StronglySorted Z.lt l.
Proof. intros. unfold fp_range. eapply range_loop_spec; eauto. Qed.
Example C77_range_ex : fp_range TI8 125 127 = Some [125; 126]%Z.
Proof. reflexivity. Qed.

(** ** Strings *)
Lemma blen_app : forall a b, blen (a ++ b) = blen a + blen b.
Proof. intros. unfold blen. rewrite map_app, list_sum_app. auto. Qed.
Lemma blen_cons : forall c s, blen (c :: s) = ulen c + blen s.
Proof. auto. Qed.
Lemma ulen_pos : forall c, 1 <= ulen c.
Proof. intros c. unfold ulen. destruct (Z.ltb c 128), (Z.ltb c 2048), (Z.ltb c 65536); lia. Qed.
Lemma blen_length : forall s, length s <= blen s.
Proof. induction s; auto. rewrite blen_cons. cbn [length]. pose proof (ulen_pos a). lia. Qed.
Lemma ascii_blen : forall s, ascii s <-> blen s = length s.
Proof.
  induction s as [|c s IH]; [split; auto; constructor|].
  rewrite blen_cons. cbn [length]. split.
  - intros A. inversion A; subst. assert (ulen c = 1) by (unfold ulen; apply Z.ltb_lt in H1; rewrite H1; auto). apply IH in H2. lia.
  - intros E. pose proof (blen_length s). pose proof (ulen_pos c). constructor; [|apply IH; lia].
    destruct (Z.ltb_spec c 128); auto. exfalso. assert (2 <= ulen c).
    { unfold ulen. replace (Z.ltb c 128) with false by (symmetry; apply Z.ltb_ge; auto). destruct (Z.ltb c 2048), (Z.ltb c 65536); lia. }
    lia.
Qed.

Theorem C77_chars : forall s i c, In (i, c) (fp_string_chars s) <-> exists a b, s = a ++ c :: b /\ length a = i.
Proof.
  intros s i c. unfold fp_string_chars.
  assert (G : forall s n, In (i, c) (combine (seq n (length s)) s) <-> exists a b, s = a ++ c :: b /\ n + length a = i).
  { clear. induction s as [|d s IH]; intros n; cbn.
    - split; [tauto|]. intros (a & b & E & _). destruct a; discriminate.
    - rewrite IH. split.
      + intros [E|(a & b & E & L)].
        * inversion E; subst. exists [], s. split; auto.
        * exists (d :: a), b. split; [subst; auto|cbn; lia].
      + intros (a & b & E & L). destruct a as [|x a]; cbn in *; inversion E; subst.
        * left. f_equal. lia.
        * right. exists a, b. split; auto; lia. }
  apply (G s 0).
Qed.
Theorem C77_chars_once : forall s, NoDup (map fst (fp_string_chars s)).
Proof.
  intros s. unfold fp_string_chars. replace (map fst (combine (seq 0 (length s)) s)) with (seq 0 (length s)); [apply seq_NoDup|].
  generalize 0. induction s; intros n; cbn; auto. f_equal. auto.
Qed.

Lemma starts_spec : forall p s, starts p s = true <-> exists b, s = p ++ b.
Proof.
  induction p as [|c p IH]; intros s; cbn.
  - split; eauto.
  - destruct s as [|d s].
    + split; [discriminate|]. intros (b & E). discriminate.
    + rewrite andb_true_iff, Z.eqb_eq, IH. split.
      * intros (-> & b & ->). eauto.
      * intros (b & E). inversion E; subst. split; eauto.
Qed.

Lemma find_sound : forall p s pos skip i, In i (find_all p s pos skip) ->
  exists a, occurs p s a /\ i = pos + blen a /\ skip <= length a.
Proof.
  intros p. induction s as [|c s IH]; intros pos skip i I; cbn [find_all] in I.
  - destruct p; [|easy]. destruct skip; [|easy]. destruct I as [<-|[]]. exists []. split; [exists []; auto|]. cbn. lia.
  - assert (Step : forall k, (k = pred skip \/ skip = 0) -> In i (find_all p s (pos + ulen c) k) -> exists a, occurs p (c :: s) a /\ i = pos + blen a /\ skip <= length a).
    { intros k K J. apply IH in J as (a & (b & E) & L & M). exists (c :: a). split; [exists b; cbn; f_equal; auto|].
      rewrite blen_cons. cbn [length]. lia. }
    destruct skip as [|k]; [|apply (Step k); auto].
    destruct (starts p (c :: s)) eqn:St.
    + destruct I as [<-|I]; [|eapply Step; eauto].
      apply starts_spec in St as (b & E). exists []. split; [exists b; auto|]. cbn. lia.
    + eapply Step; eauto.
Qed.
Lemma find_cover : forall p s, p <> [] -> forall pos skip a, occurs p s a -> skip <= length a ->
  exists a', In (pos + blen a') (find_all p s pos skip) /\ occurs p s a' /\ length a' <= length a < length a' + length p.
Proof.
  intros p s N. induction s as [|c s IH]; intros pos skip a (b & E) L.
  { destruct a; cbn in E; [|discriminate]. destruct p; [easy|discriminate]. }
  assert (Step : forall k, k <= pred (length a) -> a <> [] -> exists a', In (pos + blen a') (find_all p s (pos + ulen c) k) /\ occurs p (c :: s) a' /\ length a' <= length a < length a' + length p).
  { intros k K Na. destruct a as [|d a]; [easy|]. cbn in E. inversion E; subst. cbn [length pred] in K.
    destruct (IH (pos + ulen d) k a ltac:(exists b; auto) K) as (a' & I & (b' & E') & O).
    exists (d :: a'). rewrite blen_cons. split; [|split; [exists b'; cbn; f_equal; auto|cbn [length]; lia]].
    replace (pos + (ulen d + blen a')) with (pos + ulen d + blen a') by lia. auto. }
  cbn [find_all]. destruct skip as [|k].
  - destruct (starts p (c :: s)) eqn:St.
    + destruct (le_lt_dec (length p) (length a)) as [G|G].
      * destruct p as [|x p]; [easy|]. cbn [length] in *.
        destruct (Step (S (length p) - 1) ltac:(lia) ltac:(destruct a; [cbn in G; lia|discriminate])) as (a' & I & O & R).
        exists a'. split; [right; auto|]. auto.
      * exists []. apply starts_spec in St as (b' & Eb). split; [left; cbn; lia|]. split; [exists b'; auto|]. cbn. lia.
    + apply Step; [lia|]. intros ->. cbn in E. rewrite E in St.
      assert (starts p (p ++ b) = true) by (apply starts_spec; eauto). congruence.
  - apply Step; [lia|]. intros ->. cbn in L. lia.
Qed.
Lemma find_lower : forall p s pos skip i, In i (find_all p s pos skip) -> pos + blen (firstn skip s) <= i.
Proof.
  intros p s pos skip i I. apply find_sound in I as (a & (b & E) & -> & L). subst s.
  rewrite firstn_app. replace (skip - length a) with 0 by lia. rewrite firstn_O, app_nil_r.
  rewrite <- (firstn_skipn skip a) at 2. rewrite blen_app. lia.
Qed.
Lemma find_sorted : forall p s pos skip, StronglySorted (apart (blen p)) (find_all p s pos skip).
Proof.
  intros p. induction s as [|c s IH]; intros pos skip; cbn [find_all].
  - destruct p, skip; repeat constructor.
  - destruct skip; auto. destruct (starts p (c :: s)) eqn:St; auto.
    constructor; auto. apply Forall_forall. intros j J. apply find_lower in J. unfold apart.
    apply starts_spec in St as (b & E). destruct p as [|x p]; [cbn; lia|]. cbn in E. inversion E; subst.
    cbn [length] in J. replace (S (length p) - 1) with (length p) in J by lia.
    rewrite firstn_app, firstn_all, Nat.sub_diag, firstn_O, app_nil_r in J. rewrite blen_cons. lia.
Qed.

(** Every found range begins at an occurrence of the pattern, and ranges are apart. *)
Theorem C77_find_begin : forall s p i j, In (i, j) (fp_string_find s p) ->
  exists a, occurs p s a /\ i = blen a.
Proof.
  intros s p i j I. apply in_map_iff in I as (k & E & I). inversion E; subst.
  apply find_sound in I as (a & O & -> & _). eauto.
Qed.
Theorem C77_find_apart : forall s p, StronglySorted (apart (blen p)) (map fst (fp_string_find s p)).
Proof.
  intros. unfold fp_string_find. rewrite map_map, map_id. apply find_sorted.
Qed.
(** The ranges of a pattern of ASCII characters are those of the pattern. *)
Theorem C77_find_partial : forall s p i j, ascii p -> In (i, j) (fp_string_find s p) ->
  exists a, occurs p s a /\ i = blen a /\ j = blen (a ++ p).
Proof.
  intros s p i j A I. apply in_map_iff in I as (k & E & I). inversion E; subst.
  apply find_sound in I as (a & O & -> & _). exists a. rewrite blen_app. apply ascii_blen in A. rewrite A. auto.
Qed.
Example C77_find_ex : fp_string_find [97; 98; 97; 98]%Z [97; 98]%Z = [(0, 2); (2, 4)].
Proof. reflexivity. Qed.
(** Every occurrence is found or overlaps with one that is found and begins before it. *)
Theorem C77_find_cover_partial : forall s p a, p <> [] -> occurs p s a ->
  exists a' j, In (blen a', j) (fp_string_find s p) /\ occurs p s a' /\ length a' <= length a < length a' + length p.
Proof.
  intros s p a N O. destruct (find_cover p s N 0 0 a O ltac:(lia)) as (a' & I & O' & L).
  exists a', (blen a' + length p). split; auto. apply in_map_iff. exists (blen a'). auto.
Qed.
(** Not all occurrences are found (the documentation says so): "aa" in "aaa". *)
Theorem C77_find_all_refuted : exists s p a, p <> [] /\ occurs p s a /\ forall j, ~ In (blen a, j) (fp_string_find s p).
Proof.
  exists [97; 97; 97]%Z, [97; 97]%Z, [97]%Z. split; [discriminate|]. split; [exists []; auto|].
  intros j I. cbv in I. destruct I as [I|[]]. discriminate.
Qed.
(** The ends count characters while the beginnings count bytes: the range found for a
    pattern with a two-byte character is not that of the pattern, and is not a range of
    [$substring]. *)
Theorem C77_find_range_refuted : exists s p i j, In (i, j) (fp_string_find s p) /\ ff_substring s i (Some j) = None.
Proof.
  exists [233; 97]%Z, [233]%Z, 0, 1. split; [left; auto|]. reflexivity.
Qed.

(** Splitting. *)
Lemma pieces_nonempty : forall p s cur skip, pieces p s cur skip <> [].
Proof.
  induction s as [|c s IH]; intros cur skip; cbn [pieces].
  - destruct p; discriminate.
  - destruct skip; auto. destruct starts; auto. discriminate.
Qed.
Lemma join_cons : forall sep x l, l <> [] -> join sep (x :: l) = x ++ sep ++ join sep l.
Proof. intros sep x l N. destruct l; [easy|]. auto. Qed.
Lemma pieces_join : forall p s cur skip, (p = [] -> skip = 0) -> skip <= length s ->
  join p (pieces p s cur skip) = rev cur ++ skipn skip s.
Proof.
  intros p. induction s as [|c s IH]; intros cur skip P L; cbn [pieces].
  - cbn in L. destruct skip; [|lia]. cbn [skipn]. destruct p; cbn; rewrite ?app_nil_r; auto.
  - destruct skip as [|k].
    + destruct (starts p (c :: s)) eqn:St.
      * destruct p as [|x p].
        -- rewrite join_cons by apply pieces_nonempty. rewrite IH by (auto; lia). auto.
        -- apply starts_spec in St as (b & E). cbn in E. inversion E; subst.
           rewrite join_cons by apply pieces_nonempty. rewrite IH by (try discriminate; rewrite app_length; lia).
           cbn [skipn rev app]. rewrite skipn_app, skipn_all, Nat.sub_diag. auto.
      * rewrite IH by (auto; lia). cbn [rev skipn]. rewrite <- app_assoc. auto.
    + cbn in L. rewrite IH by (try lia; intros; exfalso; specialize (P H); lia). auto.
Qed.
(** The pieces with the pattern between them are the string. *)
Theorem C77_split : forall s p, join p (fp_string_split s p) = s.
Proof. intros. unfold fp_string_split. rewrite pieces_join; auto. lia. Qed.

Lemma occurs_app : forall p s t a, occurs p s a -> occurs p (s ++ t) a.
Proof. intros p s t a (b & ->). exists (b ++ t). rewrite <- !app_assoc. auto. Qed.
Lemma free_extend : forall p x cur c s, p <> [] -> starts p (x :: s) = false -> c = x ->
  (forall a b, rev cur ++ c :: s = a ++ p ++ b -> length cur <= length a) ->
  forall a b, rev (c :: cur) ++ s = a ++ p ++ b -> length (c :: cur) <= length a.
Proof.
  intros p x cur c s N St -> F a b E. cbn [rev] in E. rewrite <- app_assoc in E. cbn in E.
  pose proof (F a b E) as L. cbn [length]. destruct (Nat.eq_dec (length a) (length cur)) as [Eq|]; [|lia].
  exfalso. assert (a = rev cur).
  { apply (f_equal (firstn (length cur))) in E. rewrite !firstn_app, rev_length, Nat.sub_diag, !firstn_O, app_nil_r in E.
    rewrite Eq, Nat.sub_diag, firstn_O, app_nil_r in E. rewrite !firstn_all2 in E by (rewrite ?rev_length; lia). auto. }
  subst a. apply app_inv_head in E. rewrite E in St.
  assert (starts p (p ++ b) = true) by (apply starts_spec; eauto). congruence.
Qed.
Lemma pieces_free : forall p, p <> [] -> forall s cur skip,
  (skip = 0 -> forall a b, rev cur ++ s = a ++ p ++ b -> length cur <= length a) -> (skip <> 0 -> cur = []) ->
  forall x, In x (pieces p s cur skip) -> forall a, ~ occurs p x a.
Proof.
  intros p N. induction s as [|c s IH]; intros cur skip F G x I a (b & E); cbn [pieces] in I.
  - destruct p as [|y p]; [easy|]. destruct I as [<-|[]]. destruct skip.
    + specialize (F eq_refl a b). rewrite app_nil_r in F. specialize (F E). apply (f_equal (@length _)) in E.
      rewrite rev_length, !app_length in E. cbn in E. lia.
    + rewrite (G ltac:(lia)) in E. apply (f_equal (@length _)) in E. rewrite !app_length in E. cbn in E. lia.
  - destruct skip as [|k].
    + destruct (starts p (c :: s)) eqn:St.
      * destruct I as [<-|I].
        -- specialize (F eq_refl a (b ++ c :: s)). rewrite E in F. rewrite <- !app_assoc in F. specialize (F eq_refl).
           apply (f_equal (@length _)) in E. rewrite rev_length, !app_length in E. destruct p; [easy|]. cbn in E. lia.
        -- destruct p as [|y p]; [easy|]. eapply IH in I; eauto; [|cbn; intros; lia].
           apply I. exists b. eauto.
      * eapply IH in I; [apply I; exists b; eauto| |lia].
        intros _ a' b' E'. eapply free_extend; eauto.
    + eapply IH in I; [apply I; exists b; eauto| |].
      * intros _ a' b' _. rewrite (G ltac:(lia)). cbn. lia.
      * intros _. apply G. lia.
Qed.
(** No piece has the pattern in it. *)
Theorem C77_split_free : forall s p, p <> [] -> forall x, In x (fp_string_split s p) -> forall a, ~ occurs p x a.
Proof. intros s p N x I a. unfold fp_string_split in I. eapply pieces_free; eauto; intros; cbn; lia. Qed.
Lemma pieces_count : forall p s cur skip, (p = [] -> skip = 0) -> forall pos,
  length (pieces p s cur skip) = S (length (find_all p s pos skip)).
Proof.
  intros p. induction s as [|c s IH]; intros cur skip P pos; cbn [pieces find_all].
  - destruct p; [rewrite P by auto; auto|]. destruct skip; auto.
  - destruct skip as [|k].
    + destruct starts.
      * destruct p as [|x p]; cbn [length]; f_equal; [apply (IH [c] 0)|replace (S (length p) - 1) with (length p) by lia; apply IH]; auto; discriminate.
      * apply IH. auto.
    + apply IH. intros H. specialize (P H). discriminate.
Qed.
(** There is one piece more than there are ranges of [string_find]. *)
Theorem C77_split_count : forall s p, length (fp_string_split s p) = S (length (fp_string_find s p)).
Proof. intros. unfold fp_string_split, fp_string_find. rewrite map_length. apply pieces_count. auto. Qed.
Example C77_split_ex : fp_string_split [97; 44; 98; 44]%Z [44]%Z = [[97]; [98]; []]%Z.
Proof. reflexivity. Qed.

(** [string_index] gives positions that are not those of characters. *)
Theorem C77_index_partial : forall s, ascii s -> fp_string_index s = map fst (fp_string_chars s).
Proof.
  intros s A. apply ascii_blen in A. unfold fp_string_index, fp_string_chars. rewrite A. clear. generalize 0.
  induction s; intros n; cbn; auto. f_equal. auto.
Qed.
Theorem C77_index_refuted : exists s i, In i (fp_string_index s) /\ forall c, ~ In (i, c) (fp_string_chars s).
Proof. exists [233]%Z, 1. split; [right; left; auto|]. intros c [E|[]]. discriminate. Qed.

(** ** C78 *)
Lemma cut_spec : forall s i a b, cut s i = Some (a, b) <-> s = a ++ b /\ blen a = i.
Proof.
  induction s as [|c s IH]; intros i a b.
  - destruct i; cbn.
    + split.
      * intros E. inversion E. auto.
      * intros (E & L). symmetry in E. apply app_eq_nil in E as (-> & ->). auto.
    + split; [discriminate|]. intros (E & L). symmetry in E. apply app_eq_nil in E as (-> & ->). discriminate.
  - cbn [cut]. destruct i as [|i].
    { split.
      - intros E. inversion E. auto.
      - intros (E & L). destruct a as [|d a]; [cbn in E; subst; auto|]. rewrite blen_cons in L. pose proof (ulen_pos d). lia. }
    destruct (Nat.leb_spec (ulen c) (S i)) as [Le|Gt].
    + destruct (cut s (S i - ulen c)) as [[a' b']|] eqn:C.
      * apply IH in C as (-> & L). split.
        -- intros E. inversion E; subst. rewrite blen_cons. split; auto. lia.
        -- intros (E & L'). destruct a as [|d a]; [discriminate|]. cbn in E. inversion E; subst. rewrite blen_cons in L'.
           assert (K : cut (a' ++ b') (S i - ulen d) = Some (a, b)) by (apply IH; split; auto; lia).
           assert (K' : cut (a' ++ b') (S i - ulen d) = Some (a', b')) by (apply IH; auto).
           rewrite K in K'. inversion K'. auto.
      * split; [discriminate|]. intros (E & L'). destruct a as [|d a]; [discriminate|]. cbn in E. inversion E; subst. rewrite blen_cons in L'.
        assert (K : cut (a ++ b) (S i - ulen d) = Some (a, b)) by (apply IH; split; auto; lia). congruence.
    + split; [discriminate|]. intros (E & L'). destruct a as [|d a]; [discriminate|]. cbn in E. inversion E; subst. rewrite blen_cons in L'. lia.
Qed.

(** [$substring] gives the part between two byte positions, and panics if one of them is
    not between characters. *)
Theorem C78_substring : forall s i j r, ff_substring s i (Some j) = Some r <->
  exists a b, s = a ++ r ++ b /\ blen a = i /\ blen (a ++ r) = j.
Proof.
  intros s i j r. cbn [ff_substring]. destruct (Nat.leb_spec i j) as [L|L].
  - destruct (cut s j) as [[x y]|] eqn:C.
    + apply cut_spec in C as (-> & Lx). destruct (cut x i) as [[a m]|] eqn:D; cbn.
      * apply cut_spec in D as (-> & La). split.
        -- intros E. inversion E; subst. exists a, y. rewrite <- app_assoc. auto.
        -- intros (a' & b & E & La' & Lr).
           assert (K : cut ((a ++ m) ++ y) j = Some (a' ++ r, b)) by (apply cut_spec; rewrite <- !app_assoc in *; auto).
           assert (K' : cut ((a ++ m) ++ y) j = Some (a ++ m, y)) by (apply cut_spec; auto).
           rewrite K in K'. inversion K' as [[E1 E2]].
           assert (Q : cut (a ++ m) i = Some (a', r)) by (apply cut_spec; auto).
           assert (Q' : cut (a ++ m) i = Some (a, m)) by (apply cut_spec; auto).
           rewrite Q in Q'. inversion Q'. auto.
      * split; [discriminate|]. intros (a' & b & E & La' & Lr). exfalso.
        assert (K : cut (x ++ y) j = Some (a' ++ r, b)) by (apply cut_spec; rewrite <- !app_assoc in *; auto).
        assert (K' : cut (x ++ y) j = Some (x, y)) by (apply cut_spec; auto).
        rewrite K in K'. inversion K' as [[E1 E2]].
        assert (Q : cut x i = Some (a', r)) by (apply cut_spec; auto). congruence.
    + split; [discriminate|]. intros (a' & b & E & La' & Lr). exfalso.
      assert (K : cut s j = Some (a' ++ r, b)) by (apply cut_spec; subst; rewrite <- !app_assoc in *; auto). congruence.
  - split; [discriminate|]. intros (a & b & _ & La & Lr). rewrite blen_app in Lr. lia.
Qed.
Theorem C78_substring_rest : forall s i r, ff_substring s i None = Some r <-> exists a, s = a ++ r /\ blen a = i.
Proof.
  intros s i r. cbn. destruct (cut s i) as [[a b]|] eqn:C; cbn.
  - split.
    + intros E. inversion E; subst. apply cut_spec in C. eauto.
    + intros (a' & E & L). assert (K : cut s i = Some (a', r)) by (apply cut_spec; auto). congruence.
  - split; [discriminate|]. intros (a' & E & L). assert (K : cut s i = Some (a', r)) by (apply cut_spec; auto). congruence.
Qed.
Example C78_substring_ex : ff_substring [104; 101; 108; 108; 111]%Z 1 (Some 3) = Some [101; 108]%Z.
Proof. reflexivity. Qed.

(** What [$string_index_of] and ASCII ranges of [string_find] give can be used with
    [$substring]. *)
Theorem C78_index_of : forall s p i, ff_string_index_of s p = Some i <->
  exists a, occurs p s a /\ blen a = i /\ forall a', occurs p s a' -> length a <= length a'.
Proof.
  intros s p i. destruct p as [|x p].
  { assert (H : forall s, hd_error (find_all [] s 0 0) = Some 0) by (intros []; auto).
    unfold ff_string_index_of. rewrite H. split.
    - intros E. inversion E; subst. exists []. split; [exists s; auto|]. split; auto. intros; cbn; lia.
    - intros (a & (b & E) & L & M). specialize (M [] ltac:(exists s; auto)). destruct a; [|cbn in M; lia]. cbn in L. subst. auto. }
  assert (N : x :: p <> []) by discriminate. revert N. generalize (x :: p). clear x p. intros p N.
  unfold ff_string_index_of.
  assert (U : forall a a', occurs p s a -> occurs p s a' -> length a = length a' -> a = a').
  { intros a a' (b & E) (b' & E') L. rewrite E in E'. apply (f_equal (firstn (length a))) in E'.
    rewrite !firstn_app, L, !Nat.sub_diag, !firstn_O, !app_nil_r in E'. rewrite <- L in E' at 1. rewrite !firstn_all in E'. auto. }
  assert (Mono : forall a a', occurs p s a -> occurs p s a' -> length a <= length a' -> exists d, a' = a ++ d).
  { intros a a' (b & E) (b' & E') L. rewrite E in E'. apply (f_equal (firstn (length a'))) in E'.
    rewrite !firstn_app, Nat.sub_diag, firstn_O, app_nil_r, firstn_all in E'. rewrite firstn_all2 in E' by lia. eauto. }
  destruct (find_all p s 0 0) as [|k l] eqn:Fa.
  - split; [discriminate|]. intros (a & O & _). destruct (find_cover p s N 0 0 a O ltac:(lia)) as (a' & I & _). rewrite Fa in I. easy.
  - pose proof (find_sorted p s 0 0) as So. rewrite Fa in So. inversion So as [|? ? _ Fo]; subst.
    assert (I : In k (find_all p s 0 0)) by (rewrite Fa; left; auto).
    apply find_sound in I as (a0 & O0 & -> & _). cbn [hd_error plus].
    assert (Least : forall a', occurs p s a' -> length a0 <= length a').
    { intros a' O'. destruct (find_cover p s N 0 0 a' O' ltac:(lia)) as (a'' & I & O'' & L). rewrite Fa in I.
      assert (B : blen a0 <= blen a'').
      { destruct I as [I|I]; [cbn in I; lia|]. rewrite Forall_forall in Fo. apply Fo in I. unfold apart in I. cbn in I. lia. }
      destruct (le_lt_dec (length a0) (length a'')) as [|G]; [lia|].
      destruct (Mono a'' a0 O'' O0 ltac:(lia)) as (d & ->). rewrite blen_app, app_length in *.
      destruct d; [cbn in G; lia|]. rewrite blen_cons in B. pose proof (ulen_pos z). lia. }
    split.
    + intros E. inversion E; subst. eauto.
    + intros (a & O & L & M). f_equal. rewrite <- L. f_equal. apply U; auto.
      specialize (M _ O0). specialize (Least _ O). lia.
Qed.
Theorem C78_index_substring : forall s p i, ff_string_index_of s p = Some i -> ff_substring s i (Some (i + ff_string_length p)) = Some p.
Proof.
  intros s p i H. apply C78_index_of in H as (a & (b & E) & L & _). apply C78_substring. exists a, b.
  rewrite blen_app. unfold ff_string_length. auto.
Qed.

(** [$string_char_at] is the relation [string_chars]. *)
Theorem C78_char_at : forall s i c, ff_string_char_at s i = Some c <-> In (i, c) (fp_string_chars s).
Proof.
  intros s i c. rewrite C77_chars. unfold ff_string_char_at. split.
  - intros H. destruct (skipn i s) as [|d r] eqn:E; [discriminate|]. inversion H; subst.
    exists (firstn i s), r. rewrite <- E, firstn_skipn. split; auto. rewrite firstn_length.
    assert (length (skipn i s) = S (length r)) by (rewrite E; auto). rewrite skipn_length in *. lia.
  - intros (a & b & -> & <-). rewrite skipn_app, skipn_all, Nat.sub_diag. auto.
Qed.
(** The positions below [$string_length] are those of characters in ASCII strings only. *)
Theorem C78_length_partial : forall s, ascii s -> forall i, i < ff_string_length s <-> ff_string_char_at s i <> None.
Proof.
  intros s A i. apply ascii_blen in A. unfold ff_string_length, ff_string_char_at. rewrite A. split.
  - intros L H. destruct (skipn i s) eqn:E; [|discriminate]. apply (f_equal (@length _)) in E. rewrite skipn_length in E. cbn in E. lia.
  - intros H. destruct (le_lt_dec (length s) i) as [L|]; auto. rewrite skipn_all2 in H by auto. easy.
Qed.
Theorem C78_length_refuted : exists s i, i < ff_string_length s /\ ff_string_char_at s i = None.
Proof. exists [233]%Z, 1. split; [cbn; lia|]. reflexivity. Qed.
Theorem C78_concat : forall l, ff_string_concat l = concat l.
Proof.
  intros l. unfold ff_string_concat. rewrite <- (app_nil_l (concat l)). generalize (@nil Z).
  induction l as [|x l IH]; intros acc; cbn; [rewrite app_nil_r; auto|]. rewrite IH, app_assoc. auto.
Qed.
Theorem C78_concat_length : forall l, ff_string_length (ff_string_concat l) = list_sum (map ff_string_length l).
Proof. intros l. rewrite C78_concat. unfold ff_string_length. induction l as [|x l IH]; auto. cbn [concat map]. rewrite blen_app, IH. auto. Qed.

(** [$string_replace]: the replacement is put for the ranges that [string_find] finds, and
    nothing else is changed. *)
Theorem C78_replace : forall s p r, exists l, s = join p l /\ ff_string_replace s p r = join r l /\
  length l = S (length (fp_string_find s p)) /\ (p <> [] -> Forall (fun x => forall a, ~ occurs p x a) l).
Proof.
  intros s p r. exists (fp_string_split s p). rewrite C77_split, C77_split_count. split; auto. split; auto. split; auto.
  intros N. apply Forall_forall. intros x I a. eapply C77_split_free; eauto.
Qed.
Example C78_replace_ex : ff_string_replace [97; 98; 97]%Z [97]%Z [99; 99]%Z = [99; 99; 98; 99; 99]%Z.
Proof. reflexivity. Qed.
(** [$format]: the arguments are put for the braces, in order; it panics if and only if
    there are not as many. *)
Fixpoint fill (l args : list text) : text :=
  match l, args with x :: l, a :: args => x ++ a ++ fill l args | x :: _, [] => x | [], _ => [] end.
Theorem C78_format : forall f args, exists l, f = join braces l /\ Forall (fun x => forall a, ~ occurs braces x a) l /\
  (length l = S (length args) -> ff_format f args = Some (fill l args)) /\
  (length l <> S (length args) -> ff_format f args = None).
Proof.
  intros f args. exists (pieces braces f [] 0). split; [symmetry; apply (C77_split f braces)|]. split.
  { apply Forall_forall. intros x I a. eapply (C77_split_free f braces); eauto. discriminate. }
  unfold ff_format. destruct (pieces braces f [] 0) as [|x l] eqn:E; [now apply pieces_nonempty in E|]. clear E. cbn [length].
  revert x args. induction l as [|y l IH]; intros x [|a args]; cbn [length]; split; intros H; try lia; auto.
  - cbn. rewrite app_nil_r. auto.
  - specialize (IH y args) as (IH & _). cbn [interleave fill]. cbn [length] in *. specialize (IH ltac:(lia)).
    destruct (interleave l args); [|discriminate]. inversion IH as [E]. rewrite E. auto.
  - specialize (IH y args) as (_ & IH). cbn [interleave]. specialize (IH ltac:(lia)).
    destruct (interleave l args); [discriminate|]. auto.
Qed.
Example C78_format_ex : ff_format [123; 125; 33; 123; 125]%Z [[49]; [50]]%Z = Some [49; 33; 50]%Z.
Proof. reflexivity. Qed.
Print Assumptions C77_range.
Print Assumptions C77_chars.
Print Assumptions C77_chars_once.
Print Assumptions C77_find_begin.
Print Assumptions C77_find_apart.
Print Assumptions C77_find_partial.
Print Assumptions C77_find_cover_partial.
Print Assumptions C77_find_all_refuted.
Print Assumptions C77_find_range_refuted.
Print Assumptions C77_split.
Print Assumptions C77_split_free.
Print Assumptions C77_split_count.
Print Assumptions C77_index_partial.
Print Assumptions C77_index_refuted.
Print Assumptions C78_substring.
Print Assumptions C78_substring_rest.
Print Assumptions C78_index_of.
Print Assumptions C78_index_substring.
Print Assumptions C78_char_at.
Print Assumptions C78_length_partial.
Print Assumptions C78_length_refuted.
Print Assumptions C78_concat.
Print Assumptions C78_concat_length.
Print Assumptions C78_replace.
Print Assumptions C78_format.
