(** C94: input files and storages of relations are what their attributes say. *)
From Coq Require Import List NArith Arith Bool String Lia.
From Verif Require Import InFiles.
Import ListNotations.
Set Implicit Arguments.
Local Open Scope string_scope.
Local Open Scope list_scope.

(** ** Specification *)
Definition first_key (a : fattr) (k : string) (v : fval) : Prop :=
  exists l1 l2, fa_kw a = l1 ++ (k, v) :: l2 /\ forall x, In x l1 -> fst x <> k.
Definition no_key (a : fattr) (k : string) : Prop := forall v, ~ In (k, v) (fa_kw a).
Definition first_attr (n : string) (l : list fattr) (a : fattr) : Prop :=
  exists l1 l2, l = l1 ++ a :: l2 /\ fa_name a = n /\ forall b, In b l1 -> fa_name b <> n.
(** the value of an option: given and of the right form, or absent and the default *)
Definition option_is (A : Type) (a : fattr) (k : string) (form : fval -> A -> Prop) (o : option A) : Prop :=
  (no_key a k /\ o = None) \/ exists v x, first_key a k v /\ form v x /\ o = Some x.
Definition one_ascii (v : fval) (c : N) : Prop := v = VText [c] /\ (c < 128)%N.
Definition boolean (v : fval) (b : bool) : Prop := v = VBool b.
Definition some_texts (v : fval) (l : list text) : Prop := (exists t, v = VText t /\ l = [t]) \/ (v = VList (map VText l) /\ l <> []).
Definition list_of_texts (v : fval) (l : list text) : Prop := v = VList (map VText l).
Definition given (A : Type) (o : option A) (d : A) : A := match o with Some x => x | None => d end.
Definition is_given (A : Type) (o : option A) : bool := match o with Some _ => true | None => false end.
(** an attribute [file] describes a file *)
Definition describes (ext : text -> option text) (a : fattr) (f : csv) : Prop :=
  exists path rest d h pr k fl, fa_pos a = VText path :: rest /\ ext path = Some t_csv /\
    option_is a "deliminator" one_ascii d /\
    (option_is a "has_header" boolean h /\ h <> None \/ no_key a "has_header" /\ option_is a "header" boolean h) /\
    option_is a "has_probability" boolean pr /\ option_is a "keys" some_texts k /\ option_is a "fields" list_of_texts fl /\
    f = mkCsv path (given d 44%N) (given h false || is_given k || is_given fl) (given pr false) k fl.
Definition names_storage (a : fattr) (m : storage) : Prop :=
  exists rest, fa_pos a = VText (match m with Sorted => t_sorted | IndexedVec => t_indexed end) :: rest.
(** a type declaration about [p] with an attribute *)
Definition file_decl (i : fitem) (p : string) (a : fattr) : Prop := exists ats ps, i = FType ats ps /\ In p ps /\ first_attr "file" ats a.

(** ** Lookup *)
Lemma kw_some : forall a k v, kw_arg a k = Some v <-> first_key a k v.
Proof.
  intros a k v. unfold kw_arg, first_key. destruct a as [n po kw]; simpl. induction kw as [|[j w] kw IH]; simpl.
  - split; [discriminate|]. intros (l1 & l2 & E & _). destruct l1; discriminate.
  - destruct (String.eqb_spec j k) as [->|N].
    + split.
      * intros E. inversion E; subst. exists [], kw. split; [reflexivity|]. intros x [].
      * intros ([|x l1] & l2 & E & F); simpl in E; inversion E; subst; auto. exfalso. apply (F (k, w)); [left|]; auto.
    + rewrite IH. split.
      * intros (l1 & l2 & E & F). exists ((j, w) :: l1), l2. rewrite E. split; auto. intros x [<-|I]; auto.
      * intros ([|x l1] & l2 & E & F); simpl in E; inversion E; subst; [congruence|]. exists l1, l2. split; auto. intros y I. apply F. right. auto.
Qed.
Lemma kw_none : forall a k, kw_arg a k = None <-> no_key a k.
Proof.
  intros a k. unfold kw_arg, no_key. destruct a as [n po kw]; simpl. induction kw as [|[j w] kw IH]; simpl; [split; auto|].
  destruct (String.eqb_spec j k) as [->|N].
  - split; [discriminate|]. intros H. exfalso. apply (H w). auto.
  - rewrite IH. split; [intros H v [E|I]; [congruence|eapply H; eauto]|]. intros H v I. apply (H v). auto.
Qed.
Lemma f_find_spec : forall n l a, f_find n l = Some a <-> first_attr n l a.
Proof.
  intros n l a. unfold f_find, first_attr. induction l as [|b l IH]; simpl.
  - split; [discriminate|]. intros (l1 & l2 & E & _). destruct l1; discriminate.
  - destruct (String.eqb_spec (fa_name b) n) as [E|N].
    + split.
      * intros X. inversion X; subst. exists [], l. split; [reflexivity|]. split; [reflexivity|]. intros c [].
      * intros ([|x l1] & l2 & X & Y & F); simpl in X; inversion X; subst; auto. exfalso. apply (F x); [left|]; auto.
    + rewrite IH. split.
      * intros (l1 & l2 & X & Y & F). exists (b :: l1), l2. rewrite X. split; auto. split; auto. intros c [<-|I]; auto.
      * intros ([|x l1] & l2 & X & Y & F); simpl in X; inversion X; subst; [congruence|]. exists l1, l2. split; auto. split; auto. intros c I. apply F. right. auto.
Qed.
(** ** Options *)
Lemma option_process : forall A a k (form : fval -> A -> Prop) (proc : option fval -> fres (option A)),
  proc None = Ok None -> (forall v o, proc (Some v) = Ok o <-> exists x, form v x /\ o = Some x) ->
  forall o, proc (kw_arg a k) = Ok o <-> option_is a k form o.
Proof.
  intros A a k form proc P0 P1 o. unfold option_is. destruct (kw_arg a k) as [v|] eqn:E.
  - rewrite P1. split.
    + intros (x & F & X). right. exists v, x. split; auto. apply kw_some. auto.
    + intros [[N X]|(w & x & F & G & X)]; [apply kw_none in N; congruence|]. apply kw_some in F. assert (w = v) by congruence. subst. eauto.
  - rewrite P0. split.
    + intros X. inversion X. left. split; auto. apply kw_none. auto.
    + intros [[N X]|(w & x & F & G & X)]; [subst; auto|]. apply kw_some in F. congruence.
Qed.
Lemma u8len_pos : forall c, 1 <= u8len c.
Proof. intros c. unfold u8len. destruct (N.ltb c 128), (N.ltb c 2048), (N.ltb c 65536); lia. Qed.
Lemma text_len_one : forall t, text_len t = 1 <-> exists c, t = [c] /\ (c < 128)%N.
Proof.
  intros t. split.
  - destruct t as [|c [|d t]]; simpl; intros E; [discriminate| |].
    + exists c. split; auto. unfold u8len in E. destruct (N.ltb_spec c 128); auto. destruct (N.ltb c 2048), (N.ltb c 65536); lia.
    + assert (A := u8len_pos c). assert (B := u8len_pos d). lia.
  - intros (c & -> & L). simpl. unfold u8len. apply N.ltb_lt in L. rewrite L. auto.
Qed.
Lemma delim_ok : forall v o, process_delim (Some v) = Ok o <-> exists x, one_ascii v x /\ o = Some x.
Proof.
  intros v o. unfold one_ascii. split.
  - destruct v as [t| | | |]; simpl; try discriminate. destruct (Nat.eqb_spec (text_len t) 1) as [E|]; [|discriminate]. apply text_len_one in E as (c & -> & L).
    unfold is_ascii. assert (L' := L). apply N.ltb_lt in L'. rewrite L'. intros X. inversion X. eauto.
  - intros (c & [-> L] & ->). simpl. unfold u8len, is_ascii. apply N.ltb_lt in L. rewrite L. auto.
Qed.
Lemma bool_ok : forall e v o, process_bool e (Some v) = Ok o <-> exists x, boolean v x /\ o = Some x.
Proof. intros e v o. unfold boolean. destruct v; simpl; split; try discriminate; intros H; try (destruct H as (x & H & _); discriminate); [inversion H; eauto|destruct H as (x & H & ->); inversion H; auto]. Qed.
Lemma texts_ok : forall e l r, texts e l = Ok r <-> l = map VText r.
Proof.
  intros e. induction l as [|v l IH]; intros r; simpl.
  - split; [intros X; inversion X; auto|]. destruct r; [auto|discriminate].
  - split.
    + destruct v; try discriminate. destruct (texts e l) as [r'|e'] eqn:T; [|discriminate]. simpl. intros X. inversion X; subst. simpl. f_equal. apply IH. auto.
    + destruct r as [|t r]; [discriminate|]. intros X. simpl in X. inversion X; subst. assert (T : texts e (map VText r) = Ok r) by (apply IH; auto). rewrite T. auto.
Qed.
Lemma keys_ok : forall v o, process_keys (Some v) = Ok o <-> exists x, some_texts v x /\ o = Some x.
Proof.
  intros v o. unfold some_texts. split.
  - destruct v as [t| | |[|w l]|]; simpl; try discriminate; [intros X; inversion X; exists [t]; split; auto; left; eauto|].
    intros X. change (bind (texts FKeysString (w :: l)) (fun r => Ok (Some r)) = Ok o) in X. destruct (texts FKeysString (w :: l)) as [r|] eqn:T; [|discriminate]. apply texts_ok in T.
    inversion X; subst. exists r. split; auto. right. rewrite T. split; auto. destruct r; discriminate.
  - intros (x & [(t & -> & ->)|[-> N]] & ->); [auto|]. destruct x as [|t x]; [congruence|]. unfold process_keys. cbn [map].
    assert (T : texts FKeysString (VText t :: map VText x) = Ok (t :: x)) by (apply texts_ok; auto). rewrite T. auto.
Qed.
Lemma fields_ok : forall v o, process_fields (Some v) = Ok o <-> exists x, list_of_texts v x /\ o = Some x.
Proof.
  intros v o. unfold list_of_texts. split.
  - destruct v as [| | |l|]; try discriminate. unfold process_fields. intros X. destruct (texts FFields l) as [r|] eqn:T; [|discriminate]. apply texts_ok in T. inversion X; subst. eauto.
  - intros (x & -> & ->). unfold process_fields. assert (T : texts FFields (map VText x) = Ok x) by (apply texts_ok; auto). rewrite T. auto.
Qed.
Lemma bind_ok : forall A B (r : fres A) (f : A -> fres B) b, bind r f = Ok b <-> exists a, r = Ok a /\ f a = Ok b.
Proof. intros A B r f b. destruct r as [a|e]; simpl; split; eauto; [intros (x & E & F); inversion E; subst; auto|discriminate|intros (x & E & _); discriminate]. Qed.
Lemma text_eqb_ok : forall a b, text_eqb a b = true <-> a = b.
Proof. intros a b. unfold text_eqb. destruct (list_eq_dec N.eq_dec a b); split; auto; discriminate. Qed.
Lemma header_ok : forall a h, process_bool FHeadBool (match kw_arg a "has_header" with Some v => Some v | None => kw_arg a "header" end) = Ok h <->
  (option_is a "has_header" boolean h /\ h <> None \/ no_key a "has_header" /\ option_is a "header" boolean h).
Proof.
  intros a h. assert (O : forall k, process_bool FHeadBool (kw_arg a k) = Ok h <-> option_is a k boolean h) by (intros k; apply option_process; [auto|intros; apply bool_ok]).
  destruct (kw_arg a "has_header") as [v|] eqn:E.
  - rewrite <- E, O. split.
    + intros H. left. split; auto. destruct H as [[N _]|(w & x & _ & _ & ->)]; [apply kw_none in N; congruence|discriminate].
    + intros [[H _]|[N _]]; auto. apply kw_none in N. congruence.
  - rewrite O. split.
    + intros H. right. split; auto. apply kw_none. auto.
    + intros [[[[_ X]|(w & x & F & _)] Y]|[_ H]]; auto; [congruence|]. apply kw_some in F. congruence.
Qed.

(** ** Theorems *)
(** an attribute is accepted exactly when it describes a file, and gives that file *)
Theorem C94_attr : forall ext a f, process_attr ext a = Ok f <-> describes ext a f.
Proof.
  intros ext a f. unfold process_attr, describes.
  assert (O1 := fun o => @option_process _ a "deliminator" one_ascii process_delim eq_refl delim_ok o).
  assert (O2 := fun o => @option_process _ a "has_probability" boolean (process_bool FProbBool) eq_refl (bool_ok FProbBool) o).
  assert (O3 := fun o => @option_process _ a "keys" some_texts process_keys eq_refl keys_ok o).
  assert (O4 := fun o => @option_process _ a "fields" list_of_texts process_fields eq_refl fields_ok o).
  split.
  - destruct (fa_pos a) as [|[s| | | |] rest] eqn:P; try discriminate. destruct (ext s) as [e|] eqn:X; [|discriminate]. destruct (text_eqb e t_csv) eqn:T; [|discriminate].
    apply text_eqb_ok in T. subst e. intros H. apply bind_ok in H as (d & D & H). apply bind_ok in H as (h & Hh & H). apply bind_ok in H as (pr & Pr & H).
    apply bind_ok in H as (k & K & H). apply bind_ok in H as (fl & F & H). inversion H; subst. exists s, rest, d, h, pr, k, fl.
    split; auto. split; auto. split; [apply O1; auto|]. split; [apply header_ok; auto|]. split; [apply O2; auto|]. split; [apply O3; auto|]. split; [apply O4; auto|]. reflexivity.
  - intros (s & rest & d & h & pr & k & fl & P & X & D & Hh & Pr & K & F & ->). rewrite P, X.
    assert (T : text_eqb t_csv t_csv = true) by (apply text_eqb_ok; auto). rewrite T.
    apply O1 in D. apply header_ok in Hh. apply O2 in Pr. apply O3 in K. apply O4 in F. rewrite D. cbn [bind]. rewrite Hh. cbn [bind]. rewrite Pr. cbn [bind]. rewrite K. cbn [bind]. rewrite F. cbn [bind]. reflexivity.
Qed.
Print Assumptions C94_attr.
(** one error of the analysis is never reported *)
Theorem C94_not_ascii : forall ext its, ~ In FDelimAscii (i_errs (i_analysis ext its)).
Proof.
  intros ext its. unfold i_analysis.
  assert (PA : forall a, process_attr ext a <> Er FDelimAscii).
  { intros a. unfold process_attr. destruct (fa_pos a) as [|[s| | | |] rest]; try discriminate. destruct (ext s) as [e0|]; [|discriminate]. destruct (text_eqb _ _); [|discriminate].
    assert (TX : forall e l, e <> FDelimAscii -> texts e l <> Er FDelimAscii).
    { intros e l N. induction l as [|[] l IH]; simpl; try discriminate; try congruence. destruct (texts e l); simpl; congruence. }
    assert (PD : forall o, process_delim o <> Er FDelimAscii).
    { intros [[t| | | |]|]; simpl; try discriminate. destruct (Nat.eqb_spec (text_len t) 1) as [E|]; [|discriminate]. apply text_len_one in E as (c & -> & L). unfold is_ascii. apply N.ltb_lt in L. rewrite L. discriminate. }
    assert (PB : forall e o, e <> FDelimAscii -> process_bool e o <> Er FDelimAscii) by (intros e [[]|] N; simpl; congruence).
    assert (PK : forall o, process_keys o <> Er FDelimAscii).
    { intros [[t| | |[|v l]|]|]; try discriminate. unfold process_keys. destruct (texts FKeysString (v :: l)) eqn:T; simpl; [discriminate|]. intros X. inversion X; subst. eapply TX; [|exact T]. discriminate. }
    assert (PF : forall o, process_fields o <> Er FDelimAscii).
    { intros [[t| | |l|]|]; try discriminate. unfold process_fields. destruct (texts FFields l) eqn:T; simpl; [discriminate|]. intros X. inversion X; subst. eapply TX; [|exact T]. discriminate. }
    intros H.
    destruct (process_delim (kw_arg a "deliminator")) eqn:E1; cbn [bind] in H; [|inversion H; subst; eapply PD; eauto].
    destruct (process_bool FHeadBool _) eqn:E2 in H; cbn [bind] in H; [|inversion H; subst; eapply PB; [|exact E2]; discriminate].
    destruct (process_bool FProbBool _) eqn:E3 in H; cbn [bind] in H; [|inversion H; subst; eapply PB; [|exact E3]; discriminate].
    destruct (process_keys _) eqn:E4 in H; cbn [bind] in H; [|inversion H; subst; eapply PK; eauto].
    destruct (process_fields _) eqn:E5 in H; cbn [bind] in H; [discriminate|inversion H; subst; eapply PF; eauto]. }
  assert (G : forall its st, ~ In FDelimAscii (i_errs st) -> ~ In FDelimAscii (i_errs (fold_left (i_visit ext) its st))).
  { induction its0 as [|i l IH]; intros st N; simpl; auto. apply IH. destruct i as [ats ps|ats ps]; simpl; auto. revert st N.
    induction ps as [|p ps IHp]; intros st N; simpl; auto. apply IHp. unfold process_attrs. destruct (f_find "file" ats) as [a|]; auto. assert (Q := PA a).
    destruct (process_attr ext a); simpl; auto. rewrite in_app_iff. intros [X|[X|[]]]; [auto|congruence]. }
  apply G. intros [].
Qed.
Print Assumptions C94_not_ascii.

(** the whole analysis of input files *)
Lemma attrs_fold : forall ext ats ps st,
  let st' := fold_left (process_attrs ext ats) ps st in
  match f_find "file" ats with
  | None => st' = st
  | Some a => match process_attr ext a with
              | Ok f => i_errs st' = i_errs st /\ forall p, flook (i_map st') p = if existsb (String.eqb p) ps then Some f else flook (i_map st) p
              | Er e => i_map st' = i_map st /\ (i_errs st' = [] <-> i_errs st = [] /\ ps = [])
              end
  end.
Proof.
  intros ext ats. induction ps as [|q ps IH]; intros st; simpl in *.
  - destruct (f_find "file" ats) as [a|]; auto. destruct (process_attr ext a); auto. split; auto. tauto.
  - specialize (IH (process_attrs ext ats st q)). unfold process_attrs at 2 3 4 5 in IH. unfold process_attrs in *. destruct (f_find "file" ats) as [a|]; auto. destruct (process_attr ext a) as [f|e]; simpl in *.
    + destruct IH as [I1 I2]. split; auto. intros p. rewrite I2. simpl. rewrite (String.eqb_sym p q). destruct (String.eqb q p), (existsb (String.eqb p) ps); auto.
    + destruct IH as [I1 I2]. split; auto. rewrite I2. split; [intros [X _]; destruct (i_errs st); discriminate|intros [_ X]; discriminate].
Qed.
Theorem C94_input : forall ext its, let st := i_analysis ext its in
  (i_errs st = [] <-> forall i p a, In i its -> file_decl i p a -> exists f, describes ext a f) /\
  (i_errs st = [] -> forall p f, flook (i_map st) p = Some f <->
     exists l1 i l2 a, its = l1 ++ i :: l2 /\ file_decl i p a /\ describes ext a f /\ forall j b, In j l2 -> ~ file_decl j p b).
Proof.
  intros ext its. unfold i_analysis. induction its as [|i its IH] using rev_ind.
  - simpl. split; [split; auto; intros _ j p a []|]. intros _ p f. split; [discriminate|]. intros (l1 & j & l2 & a & E & _). destruct l1; discriminate.
  - rewrite fold_left_app. cbn [fold_left]. set (st := fold_left (i_visit ext) its (mkI [] [])) in *. cbv zeta in *. destruct IH as [H1 H2].
    (* an item without effect *)
    assert (SK : (forall p a, ~ file_decl i p a) -> i_visit ext st i = st -> (i_errs (i_visit ext st i) = [] <-> forall j p a, In j (its ++ [i]) -> file_decl j p a -> exists f, describes ext a f) /\
      (i_errs (i_visit ext st i) = [] -> forall p f, flook (i_map (i_visit ext st i)) p = Some f <->
         exists l1 j l2 a, its ++ [i] = l1 ++ j :: l2 /\ file_decl j p a /\ describes ext a f /\ forall k b, In k l2 -> ~ file_decl k p b)).
    { intros NF EV. rewrite EV. split.
      - rewrite H1. split; [intros H j p a I F; apply in_app_iff in I as [I|[<-|[]]]; [eauto|exfalso; eapply NF; eauto]|]. intros H j p a I F. apply (H j p a); auto. apply in_app_iff. auto.
      - intros E p f. rewrite H2 by auto. split.
        + intros (l1 & j & l2 & a & X & F & D & L). exists l1, j, (l2 ++ [i]), a. rewrite X, <- app_assoc. split; auto. split; auto. split; auto.
          intros k b I. apply in_app_iff in I as [I|[<-|[]]]; auto.
        + intros (l1 & j & l2 & a & X & F & D & L). destruct l2 as [|y l2] using rev_ind; [apply app_inj_tail in X as [_ <-]; exfalso; eapply NF; eauto|].
          rewrite app_comm_cons, app_assoc in X. apply app_inj_tail in X as [-> _]. exists l1, j, l2, a. split; auto. split; auto. split; auto. intros k b I. apply L. apply in_app_iff. auto. }
    destruct i as [ats ps|ats ps]; [|apply SK; auto; intros p a (x & y & E & _); discriminate].
    assert (V := attrs_fold ext ats ps st). cbv zeta in V. change (fold_left (process_attrs ext ats) ps st) with (i_visit ext st (FType ats ps)) in V.
    destruct (f_find "file" ats) as [a|] eqn:FA.
    2: { apply SK; auto. intros p a (x & y & E & I & F). inversion E; subst. apply f_find_spec in F. congruence. }
    assert (FD : forall p b, file_decl (FType ats ps) p b <-> In p ps /\ b = a).
    { intros p b. unfold file_decl. split.
      - intros (x & y & E & I & F). inversion E; subst. apply f_find_spec in F. split; auto. congruence.
      - intros [I ->]. exists ats, ps. split; auto. split; auto. apply f_find_spec. auto. }
    destruct (process_attr ext a) as [f0|e] eqn:PA.
    + destruct V as [V1 V2]. apply C94_attr in PA. rewrite V1. split.
      * rewrite H1. split.
        -- intros H j p b I F. apply in_app_iff in I as [I|[<-|[]]]; eauto. apply FD in F as [_ ->]. eauto.
        -- intros H j p b I F. apply (H j p b); auto. apply in_app_iff. auto.
      * intros E p f. rewrite V2. destruct (existsb (String.eqb p) ps) eqn:EX.
        -- apply existsb_exists in EX as (q & I & Q). apply String.eqb_eq in Q. subst q. split.
           ++ intros X. inversion X; subst. exists its, (FType ats ps), [], a. split; auto. split; [apply FD; auto|]. split; auto.
           ++ intros (l1 & j & l2 & b & X & F & D & L). destruct l2 as [|y l2] using rev_ind.
              ** apply app_inj_tail in X as [_ <-]. apply FD in F as [_ ->]. apply C94_attr in PA. apply C94_attr in D. congruence.
              ** rewrite app_comm_cons, app_assoc in X. apply app_inj_tail in X as [_ <-]. exfalso. apply (L (FType ats ps) a); [apply in_app_iff; simpl; auto|apply FD; auto].
        -- assert (NI : forall b, ~ file_decl (FType ats ps) p b).
           { intros b F. apply FD in F as [I _]. assert (existsb (String.eqb p) ps = true) by (apply existsb_exists; exists p; split; auto; apply String.eqb_refl). congruence. }
           rewrite H2 by auto. split.
           ++ intros (l1 & j & l2 & b & X & F & D & L). exists l1, j, (l2 ++ [FType ats ps]), b. rewrite X, <- app_assoc. split; auto. split; auto. split; auto.
              intros k c I. apply in_app_iff in I as [I|[<-|[]]]; auto.
           ++ intros (l1 & j & l2 & b & X & F & D & L). destruct l2 as [|y l2] using rev_ind; [apply app_inj_tail in X as [_ <-]; exfalso; eapply NI; eauto|].
              rewrite app_comm_cons, app_assoc in X. apply app_inj_tail in X as [-> _]. exists l1, j, l2, b. split; auto. split; auto. split; auto. intros k c I. apply L. apply in_app_iff. auto.
    + destruct V as [V1 V2]. destruct ps as [|q ps].
      * apply SK; auto. intros p b F. apply FD in F as [[] _].
      * assert (NE : i_errs (i_visit ext st (FType ats (q :: ps))) <> []) by (intros X; apply V2 in X as [_ X]; discriminate). split; [|tauto]. split; [tauto|].
        intros H. exfalso. destruct (H (FType ats (q :: ps)) q a) as [f D]; [apply in_app_iff; simpl; auto|apply FD; simpl; auto|]. apply C94_attr in D. congruence.
Qed.
Print Assumptions C94_input.

(** ** Storage *)
Lemma storage_ok : forall a m, find_storage a = Ok m <-> names_storage a m.
Proof.
  intros a m. unfold find_storage, names_storage. destruct (fa_pos a) as [|[s| | | |] rest]; split; try discriminate; try (intros [r E]; discriminate).
  - unfold parse_storage. destruct (text_eqb s t_sorted) eqn:A; [apply text_eqb_ok in A; subst; intros X; inversion X; eauto|].
    destruct (text_eqb s t_indexed) eqn:B; [apply text_eqb_ok in B; subst; intros X; inversion X; eauto|discriminate].
  - intros [r E]. inversion E; subst. destruct m; reflexivity.
Qed.
Lemma set_storage_spec : forall m ps st, (st_errs (set_storage m ps st) = [] <-> st_errs st = [] /\ NoDup ps /\ forall p, In p ps -> flook (st_map st) p = None) /\
  (st_errs (set_storage m ps st) = [] -> forall p d, flook (st_map (set_storage m ps st)) p = Some d <-> flook (st_map st) p = Some d \/ (In p ps /\ d = m)).
Proof.
  intros m. induction ps as [|q ps IH]; intros st; simpl.
  - split; [split; [intros H; split; auto; split; [constructor|intros p []]|tauto]|]. intros _ p d. tauto.
  - destruct (flook (st_map st) q) as [c|] eqn:L; simpl.
    + split; [|intros X; destruct (st_errs st); discriminate]. split; [intros X; destruct (st_errs st); discriminate|]. intros (_ & _ & H). rewrite H in L; [discriminate|auto].
    + destruct (IH (mkSt ((q, m) :: st_map st) (st_errs st))) as [I1 I2]. simpl in *. split.
      * rewrite I1. split.
        -- intros (A & B & C). split; auto. assert (NQ : ~ In q ps). { intros I. apply C in I. rewrite String.eqb_refl in I. discriminate. }
           split; [constructor; auto|]. intros p [<-|I]; auto. apply C in I. destruct (String.eqb q p); [discriminate|auto].
        -- intros (A & B & C). inversion B as [|? ? B1 B2]; subst. split; auto. split; auto. intros p I. destruct (String.eqb_spec q p) as [->|]; [tauto|auto].
      * intros X p d. rewrite I2 by auto. destruct (String.eqb_spec q p) as [->|N].
        -- split; [intros [Y|[_ ->]]; [inversion Y|]; auto|]. intros [Y|[_ ->]]; [congruence|auto].
        -- split; [intros [Y|[Y Z]]; auto|]. intros [Y|[[Y|Y] Z]]; auto; congruence.
Qed.
Definition f_stored (its : list fitem) : list string := flat_map (fun i => match f_find "storage" (f_attrs i) with Some _ => f_rels i | None => [] end) its.
(** the relations of all declarations with the attribute, with repetitions *)
Definition stored (its : list fitem) : list string := flat_map f_rels (filter (fun i => existsb (fun a => String.eqb (fa_name a) "storage") (f_attrs i)) its).
Lemma stored_eq : forall its, stored its = f_stored its.
Proof.
  intros its. unfold stored, f_stored. induction its as [|i its IH]; simpl; auto.
  assert (X : existsb (fun a => String.eqb (fa_name a) "storage") (f_attrs i) = match f_find "storage" (f_attrs i) with Some _ => true | None => false end).
  { unfold f_find. induction (f_attrs i) as [|a l IHl]; simpl; auto. destruct (String.eqb (fa_name a) "storage"); auto. }
  rewrite X. destruct (f_find "storage" (f_attrs i)); simpl; rewrite IH; auto.
Qed.
Theorem C94_storage : forall its, let st := st_analysis its in
  (st_errs st = [] <-> (forall i a, In i its -> first_attr "storage" (f_attrs i) a -> exists m, names_storage a m) /\ NoDup (stored its)) /\
  (st_errs st = [] -> forall p m, flook (st_map st) p = Some m <-> exists i a, In i its /\ In p (f_rels i) /\ first_attr "storage" (f_attrs i) a /\ names_storage a m).
Proof.
  intros its. rewrite stored_eq. unfold st_analysis. induction its as [|i its IH] using rev_ind.
  - simpl. split; [split; [intros _; split; [intros i a []|constructor]|auto]|]. intros _ p m. split; [discriminate|]. intros (i & a & [] & _).
  - rewrite fold_left_app. cbn [fold_left]. set (st := fold_left st_visit its (mkSt [] [])) in *. cbv zeta in *. destruct IH as [H1 H2].
    unfold f_stored. rewrite flat_map_app. fold (f_stored its). cbn [flat_map]. rewrite app_nil_r. unfold st_visit. destruct (f_find "storage" (f_attrs i)) as [a|] eqn:FA.
    + assert (FI : forall b, first_attr "storage" (f_attrs i) b <-> b = a) by (intros b; rewrite <- f_find_spec, FA; split; congruence).
      destruct (find_storage a) as [m0|e] eqn:FS.
      * apply storage_ok in FS. destruct (set_storage_spec m0 (f_rels i) st) as [S1 S2].
        assert (ST : st_errs st = [] -> forall p, (flook (st_map st) p = None <-> ~ In p (f_stored its))).
        { intros E p. split.
          - intros L I. unfold f_stored in I. apply in_flat_map in I as (j & J & I). destruct (f_find "storage" (f_attrs j)) as [b|] eqn:FB; [|destruct I].
            apply f_find_spec in FB. assert (E' := E). apply H1 in E' as [W _]. destruct (W j b J FB) as [m M]. assert (flook (st_map st) p = Some m) by (apply H2; eauto 8). congruence.
          - intros N. destruct (flook (st_map st) p) as [m|] eqn:L; auto. apply H2 in L as (j & b & J & I & F & _); auto. exfalso. apply N. unfold f_stored. apply in_flat_map. exists j. split; auto. apply f_find_spec in F. rewrite F. auto. }
        assert (ND : forall (l k : list string), NoDup (l ++ k) <-> NoDup l /\ NoDup k /\ forall p, In p k -> ~ In p l).
        { clear. induction l as [|x l IH]; intros k; simpl; [split; [intros N; split; [constructor|split; auto]|tauto]|]. split.
          - intros N. inversion N as [|? ? N1 N2]; subst. apply IH in N2 as (A & B & C). rewrite in_app_iff in N1. split; [constructor; tauto|]. split; auto. intros p I [->|J]; [tauto|eapply C; eauto].
          - intros (A & B & C). inversion A as [|? ? A1 A2]; subst. constructor; [rewrite in_app_iff; intros [X|X]; [tauto|eapply C; eauto]|]. apply IH. split; auto. split; auto. intros p I J. eapply C; eauto. }
        split.
        -- rewrite S1, ND. split.
           ++ intros (A & B & C). assert (A' := A). apply H1 in A' as [W N]. split; [intros j b J F; apply in_app_iff in J as [J|[<-|[]]]; eauto; apply FI in F; subst; eauto|].
              split; auto. split; auto. intros p I. apply ST; auto.
           ++ intros (W & N & B & C). assert (A : st_errs st = []) by (apply H1; split; auto; intros j b J; apply W; apply in_app_iff; auto). split; auto. split; auto. intros p I. apply ST; auto.
        -- intros X p m. rewrite S2 by auto. apply S1 in X as (A & _). rewrite H2 by auto. split.
           ++ intros [(j & b & J & I & F & M)|[I ->]]; [exists j, b; split; auto; apply in_app_iff; auto|]. exists i, a. split; [apply in_app_iff; simpl; auto|]. split; auto. split; auto. apply FI. auto.
           ++ intros (j & b & J & I & F & M). apply in_app_iff in J as [J|[<-|[]]]; [left; eauto 8|]. right. split; auto. apply FI in F. subst. apply storage_ok in M. apply storage_ok in FS. congruence.
      * cbn [st_errs st_map]. split; [|intros X; destruct (st_errs st); discriminate]. split; [intros X; destruct (st_errs st); discriminate|].
        intros [W _]. destruct (W i a) as [m M]; [apply in_app_iff; simpl; auto|apply FI; auto|]. apply storage_ok in M. congruence.
    + rewrite app_nil_r. assert (NF : forall b, ~ first_attr "storage" (f_attrs i) b) by (intros b F; apply f_find_spec in F; congruence). split.
      * rewrite H1. split; intros [W N]; split; auto.
        -- intros j b J F. apply in_app_iff in J as [J|[<-|[]]]; eauto. exfalso. eapply NF; eauto.
        -- intros j b J. apply W. apply in_app_iff. auto.
      * intros E p m. rewrite H2 by auto. split; intros (j & b & J & R).
        -- exists j, b. split; auto. apply in_app_iff. auto.
        -- apply in_app_iff in J as [J|[<-|[]]]; [eauto|]. exfalso. destruct R as (_ & F & _). eapply NF; eauto.
Qed.
Print Assumptions C94_storage.

(** ** Examples *)
Definition ex_ext (t : text) : option text := if existsb (N.eqb 46) t then Some (skipn (List.length t - 3) t) else None.
Definition a_csv : text := [97; 46; 99; 115; 118]%N.
Definition b_csv : text := [98; 46; 99; 115; 118]%N.
Definition fileA (p : text) (kw : list (string * fval)) : fattr := mkFA "file" [VText p] kw.
Definition storeA (t : text) : fattr := mkFA "storage" [VText t] [].
Definition ex_items : list fitem :=
  [FType [fileA a_csv [("header", VBool true); ("deliminator", VText [59%N])]; fileA b_csv []] ["p"; "q"];
   FType [storeA t_indexed; fileA b_csv [("keys", VList [VText [105%N]])]] ["r"]; FRel [storeA t_sorted] ["p"; "s"]].
Example C94_ex : i_errs (i_analysis ex_ext ex_items) = [] /\ st_errs (st_analysis ex_items) = [] /\
  map (flook (i_map (i_analysis ex_ext ex_items))) ["p"; "q"; "r"; "s"] =
    [Some (mkCsv a_csv 59 true false None None); Some (mkCsv a_csv 59 true false None None); Some (mkCsv b_csv 44 true false (Some [[105%N]]) None); None] /\
  map (flook (st_map (st_analysis ex_items))) ["p"; "q"; "r"; "s"] = [Some Sorted; None; Some IndexedVec; Some Sorted].
Proof. repeat split; vm_compute; reflexivity. Qed.
Example C94_ex_errors :
  i_errs (i_analysis ex_ext [FType [mkFA "file" [] []] ["p"; "q"]]) = [FNum; FNum] /\
  i_errs (i_analysis ex_ext [FType [fileA [97%N] []] ["p"]; FType [fileA [97; 46; 116; 120; 116]%N []] ["p"]; FType [mkFA "file" [VOther] []] ["p"]]) = [FNoExt; FExt; FArg] /\
  i_errs (i_analysis ex_ext [FType [fileA a_csv [("deliminator", VBool true)]] ["p"]; FType [fileA a_csv [("deliminator", VText [])]] ["p"]; FType [fileA a_csv [("has_header", VOther); ("header", VBool true)]] ["p"]]) = [FDelimString; FDelimSingle; FHeadBool] /\
  i_errs (i_analysis ex_ext [FType [fileA a_csv [("keys", VList [])]] ["p"]; FType [fileA a_csv [("keys", VTuple [])]] ["p"]; FType [fileA a_csv [("fields", VText [])]] ["p"]; FType [fileA a_csv [("has_probability", VOther)]] ["p"]]) = [FKeysEmpty; FKeysString; FFields; FProbBool] /\
  st_errs (st_analysis (ex_items ++ [FRel [storeA t_sorted] ["t"; "s"; "p"]; FRel [storeA [97%N]] ["u"]; FRel [mkFA "storage" [VBool true] []] ["u"]; FRel [mkFA "storage" [] []] ["u"]])) = [STwice "s"; SName; SType; SNum].
Proof. repeat split; vm_compute; reflexivity. Qed.

(** ** What does not hold *)
(** a relation has one file: two declarations with different files are accepted, and the order decides *)
Theorem C94_conflict_refuted : exists i j f g, f <> g /\
  i_errs (i_analysis ex_ext [i; j]) = [] /\ flook (i_map (i_analysis ex_ext [i; j])) "p" = Some g /\
  i_errs (i_analysis ex_ext [j; i]) = [] /\ flook (i_map (i_analysis ex_ext [j; i])) "p" = Some f.
Proof.
  exists (FType [fileA a_csv []] ["p"]), (FType [fileA b_csv []] ["p"]), (mkCsv a_csv 44 false false None None), (mkCsv b_csv 44 false false None None).
  split; [discriminate|]. repeat split; vm_compute; reflexivity.
Qed.
Print Assumptions C94_conflict_refuted.
(** a single character that is not ASCII is reported as such: it is reported as more than one character *)
Theorem C94_delim_refuted : exists c, i_errs (i_analysis ex_ext [FType [fileA a_csv [("deliminator", VText [c])]] ["p"]]) = [FDelimSingle] /\ (128 <= c)%N.
Proof. exists 233%N. split; [vm_compute; reflexivity|lia]. Qed.
Print Assumptions C94_delim_refuted.
(** files of rules and facts, and options that are not known (here the usual spelling of the delimiter), count or are
    reported: they are ignored *)
Theorem C94_ignored_refuted : exists i j, i = FRel [mkFA "file" [] []] ["p"] /\ j = FType [fileA a_csv [("delimiter", VText [59%N])]] ["q"] /\
  i_errs (i_analysis ex_ext [i; j]) = [] /\ flook (i_map (i_analysis ex_ext [i; j])) "p" = None /\ flook (i_map (i_analysis ex_ext [i; j])) "q" = Some (mkCsv a_csv 44 false false None None).
Proof. eexists; eexists. split; [reflexivity|]. split; [reflexivity|]. repeat split; vm_compute; reflexivity. Qed.
Print Assumptions C94_ignored_refuted.
(** headers can be switched off: not when keys or fields are given *)
Theorem C94_header_refuted : exists a f, process_attr ex_ext a = Ok f /\ first_key a "has_header" (VBool false) /\ c_header f = true.
Proof.
  exists (fileA a_csv [("has_header", VBool false); ("fields", VList [])]). eexists. split; [vm_compute; reflexivity|]. split; [|reflexivity].
  exists [], [("fields", VList [])]. split; [reflexivity|]. intros x [].
Qed.
Print Assumptions C94_header_refuted.
