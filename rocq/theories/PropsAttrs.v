(** C91: relations get the attributes that their declarations give them. *)
From Coq Require Import List ZArith Bool String Ascii Lia.
From Verif Require Import Attrs.
Import ListNotations.
Set Implicit Arguments.
Local Open Scope string_scope.
Local Open Scope list_scope.

(** ** Specification *)
(** A declaration is about relation [p] with [n] arguments. *)
Inductive declares : aitem -> string -> nat -> Prop :=
| DecType : forall ats rs r, In r rs -> declares (IType ats rs) (rt_pred r) (List.length (rt_args r))
| DecAtom : forall ats p n, declares (IRule ats (HAtom p n)) p n
| DecConj : forall ats l p n, In (p, n) l -> declares (IRule ats (HConj l)) p n
| DecDisj : forall ats l p n, In (p, n) l -> declares (IRule ats (HDisj l)) p n.
Definition carries (items : list aitem) (p : string) (n : nat) (a : attr) : Prop :=
  exists i, In i items /\ declares i p n /\ In a (item_attrs i).
Definition annotated (items : list aitem) (name : string) (p : string) (n : nat) : Prop :=
  exists a, carries items p n a /\ a_name a = name.

(** Some argument is annotated; the pattern has [b] where arguments are bound and [f] elsewhere. *)
Definition adorned (r : rtype) (s : string) : Prop :=
  (exists b, In (Some b) (rt_args r)) /\ String.length s = List.length (rt_args r) /\
  forall k o, nth_error (rt_args r) k = Some o ->
    String.get k s = Some (match o with Some true => "b" | _ => "f" end)%char.
Definition no_demand (ats : list attr) : Prop := forall a, In a ats -> a_name a <> "demand".
(** What a program says about the demand of a relation: by an attribute, or by annotated arguments. *)
Definition asks (items : list aitem) (p s : string) : Prop :=
  (exists n a, carries items p n a /\ a_name a = "demand" /\ a_pos a = [AStr s]) \/
  (exists ats r, In (IType ats [r]) items /\ rt_pred r = p /\ no_demand ats /\ adorned r s).

(** No conjunctive head, and no relation with annotated arguments declared together with others, unless there is
    a demand attribute. *)
Definition kept (i : aitem) : Prop :=
  match i with
  | IRule _ (HConj _) => False
  | IType ats rs => (exists a, In a ats /\ a_name a = "demand") \/ (exists r, rs = [r]) \/ forall r b, In r rs -> ~ In (Some b) (rt_args r)
  | _ => True
  end.
Definition simple (i : aitem) : Prop := kept i /\ match i with IRule _ (HDisj _) => False | _ => True end.

(** ** Attributes and patterns *)
Lemma find_attr_spec : forall n l, (exists a, find_attr n l = Some a /\ In a l /\ a_name a = n) \/ (find_attr n l = None /\ forall a, In a l -> a_name a <> n).
Proof.
  intros n l. unfold find_attr. destruct (find _ l) as [a|] eqn:E.
  - left. apply find_some in E as [I E]. apply String.eqb_eq in E. eauto.
  - right. split; auto. intros a I X. apply (find_none _ _ E) in I. simpl in I. apply String.eqb_neq in I. auto.
Qed.
Lemma has_attr_iff : forall n l, has_attr n l = true <-> exists a, In a l /\ a_name a = n.
Proof.
  intros n l. unfold has_attr. destruct (find_attr_spec n l) as [(a & E & I & N)|(E & N)]; rewrite E.
  - split; auto. eauto.
  - split; [discriminate|]. intros (a & I & X). exfalso. eapply N; eauto.
Qed.
Lemma has_adornment_iff : forall r, has_adornment r = true <-> exists b, In (Some b) (rt_args r).
Proof.
  intros r. unfold has_adornment. rewrite existsb_exists. split.
  - intros ([b|] & I & X); [eauto|discriminate].
  - intros [b I]. exists (Some b). auto.
Qed.
Lemma demand_of_spec : forall r, String.length (demand_of r) = List.length (rt_args r) /\
  forall k o, nth_error (rt_args r) k = Some o -> String.get k (demand_of r) = Some (match o with Some true => "b" | _ => "f" end)%char.
Proof.
  intros [p l]. unfold demand_of. simpl. induction l as [|o l [IH1 IH2]]; simpl; split; auto.
  - intros [|k] o' H; discriminate.
  - intros [|k] o'; simpl; [|auto]. intros H. inversion H; subst. auto.
Qed.
Lemma string_ext : forall s t, String.length s = String.length t -> (forall k, k < String.length s -> String.get k s = String.get k t) -> s = t.
Proof.
  induction s as [|c s IH]; destruct t as [|d t]; simpl; intros L H; try discriminate; auto.
  f_equal.
  - specialize (H 0). simpl in H. assert (Some c = Some d) by (apply H; lia). congruence.
  - apply IH; [lia|]. intros k K. specialize (H (S k)). simpl in H. apply H. lia.
Qed.
Lemma adorned_iff : forall r s, adorned r s <-> has_adornment r = true /\ s = demand_of r.
Proof.
  intros r s. destruct (demand_of_spec r) as [D1 D2]. split.
  - intros (A & B & C). split; [apply has_adornment_iff; auto|]. apply string_ext; [congruence|]. intros k K. rewrite B in K.
    destruct (nth_error (rt_args r) k) as [o|] eqn:E; [|apply nth_error_None in E; lia]. rewrite (C _ _ E), (D2 _ _ E). auto.
  - intros [A ->]. split; [apply has_adornment_iff; auto|]. auto.
Qed.
Lemma demand_valid : forall r, valid_pattern (demand_of r) = true.
Proof.
  intros [p l]. unfold demand_of. simpl. induction l as [|o l IH]; [auto|]. cbn [fold_right valid_pattern]. rewrite IH, andb_true_r.
  destruct o as [[|]|]; reflexivity.
Qed.

(** ** Demand *)
Definition acts_of (i : aitem) : list (string * attr) :=
  match i with
  | IType ats rs => flat_map (fun r => map (pair (rt_pred r)) ats) rs
  | IRule ats (HAtom p _) => map (pair p) ats
  | _ => []
  end.
Definition run_acts (acts : list (string * attr)) (st : dstate) : dstate :=
  fold_left (fun st x => process_attribute (fst x) st (snd x)) acts st.
Lemma acts_one : forall p ats st, fold_left (process_attribute p) ats st = run_acts (map (pair p) ats) st.
Proof. induction ats as [|a ats IH]; intros st; simpl; auto. Qed.
Lemma run_app : forall a b st, run_acts (a ++ b) st = run_acts b (run_acts a st).
Proof. intros. apply fold_left_app. Qed.
Lemma demand_acts : forall i st, simple i -> demand_visit st i = run_acts (acts_of i) st.
Proof.
  intros i st [_ H]. destruct i as [ats rs|ats h|ats p|ats p]; simpl; auto.
  - revert st. induction rs as [|r rs IH]; intros st; simpl; auto. rewrite run_app, IH, acts_one. auto.
  - destruct h; try tauto. apply acts_one.
Qed.

Definition said (pats : list (string * string)) (acts : list (string * attr)) (p s : string) : Prop :=
  slookup pats p = Some s \/ exists a, In (p, a) acts /\ a_name a = "demand" /\ a_pos a = [AStr s].
Definition well_formed (acts : list (string * attr)) : Prop :=
  forall p a, In (p, a) acts -> a_name a = "demand" -> exists s, a_pos a = [AStr s] /\ valid_pattern s = true.

Lemma errs_grow : forall acts st, d_errs st <> [] -> d_errs (run_acts acts st) <> [].
Proof.
  induction acts as [|[p a] acts IH]; intros st H; simpl; auto. apply IH. unfold process_attribute.
  assert (K : forall e x, d_errs (d_err e x) <> []) by (intros e x; simpl; destruct (d_errs x); discriminate).
  set (st1 := if existsb (String.eqb p) (d_disj st) then _ else _).
  assert (N : d_errs st1 <> []) by (unfold st1; destruct (existsb _ _); auto).
  destruct (String.eqb (a_name a) "demand"); auto.
  destruct (a_pos a) as [|v vs]; auto. destruct v, vs; auto. destruct (valid_pattern s); auto.
  destruct (slookup (d_pats st1) p); auto. destruct (String.eqb s0 s); auto.
Qed.

Lemma run_spec : forall acts st, d_disj st = [] -> (forall p s, slookup (d_pats st) p = Some s -> valid_pattern s = true) ->
  (d_errs (run_acts acts st) = [] <-> d_errs st = [] /\ well_formed acts /\
     forall p s s', said (d_pats st) acts p s -> said (d_pats st) acts p s' -> s = s') /\
  (d_errs (run_acts acts st) = [] -> forall p s, slookup (d_pats (run_acts acts st)) p = Some s <-> said (d_pats st) acts p s) /\
  (forall p s, slookup (d_pats (run_acts acts st)) p = Some s -> valid_pattern s = true).
Proof.
  induction acts as [|[p a] acts IH]; intros st D V.
  - simpl. split; [|split; auto].
    + split; [|tauto]. intros E. split; auto. split; [intros p a []|]. intros p s s' [A|(a & [] & _)] [B|(b & [] & _)]. congruence.
    + intros _ p s. split; [left; auto|]. intros [A|(a & [] & _)]; auto.
  - change (run_acts ((p, a) :: acts) st) with (run_acts acts (process_attribute p st a)).
    assert (BAD : forall e, process_attribute p st a = d_err e st ->
      (well_formed ((p, a) :: acts) -> (forall q s s', said (d_pats st) ((p, a) :: acts) q s -> said (d_pats st) ((p, a) :: acts) q s' -> s = s') -> False) ->
      (d_errs (run_acts acts (process_attribute p st a)) = [] <-> d_errs st = [] /\ well_formed ((p, a) :: acts) /\
        forall q s s', said (d_pats st) ((p, a) :: acts) q s -> said (d_pats st) ((p, a) :: acts) q s' -> s = s') /\
      (d_errs (run_acts acts (process_attribute p st a)) = [] -> forall q s, slookup (d_pats (run_acts acts (process_attribute p st a))) q = Some s <-> said (d_pats st) ((p, a) :: acts) q s) /\
      (forall q s, slookup (d_pats (run_acts acts (process_attribute p st a))) q = Some s -> valid_pattern s = true)).
    { intros e E B. rewrite E. assert (N : d_errs (run_acts acts (d_err e st)) <> []) by (apply errs_grow; simpl; destruct (d_errs st); discriminate).
      split; [split; [tauto|intros (_ & W & U); exfalso; eauto]|]. split; [tauto|]. apply IH; auto. }
    assert (SAME : process_attribute p st a = st -> (well_formed acts <-> well_formed ((p, a) :: acts)) ->
      (forall q s, said (d_pats st) acts q s <-> said (d_pats st) ((p, a) :: acts) q s) ->
      (d_errs (run_acts acts (process_attribute p st a)) = [] <-> d_errs st = [] /\ well_formed ((p, a) :: acts) /\
        forall q s s', said (d_pats st) ((p, a) :: acts) q s -> said (d_pats st) ((p, a) :: acts) q s' -> s = s') /\
      (d_errs (run_acts acts (process_attribute p st a)) = [] -> forall q s, slookup (d_pats (run_acts acts (process_attribute p st a))) q = Some s <-> said (d_pats st) ((p, a) :: acts) q s) /\
      (forall q s, slookup (d_pats (run_acts acts (process_attribute p st a))) q = Some s -> valid_pattern s = true)).
    { intros E W S1. rewrite E. destruct (IH st D V) as (I1 & I2 & I3). split; [|split; auto].
      - rewrite I1, W. split; intros (A & B & C); (split; [auto|split; [auto|]]); intros q s s' X Y; eapply C; apply S1; eauto.
      - intros N q s. rewrite I2 by auto. apply S1. }
    unfold process_attribute in *. rewrite D in *. cbn [existsb] in *.
    destruct (String.eqb_spec (a_name a) "demand") as [DN|DN].
    2: { apply SAME; auto.
         - split; intros W q b I X; [destruct I as [I|I]; [inversion I; subst; tauto|eauto]|]. apply (W q b); [right; auto|auto].
         - intros q s. split; intros [L|(b & I & X)]; [left; auto|right; exists b; split; [right; auto|auto]|left; auto|].
           destruct I as [I|I]; [inversion I; subst; tauto|]. right. exists b. auto. }
    assert (HERE : In (p, a) ((p, a) :: acts)) by (left; auto).
    destruct (a_pos a) as [|v vs] eqn:PA.
    { eapply BAD; [reflexivity|]. intros W _. destruct (W _ _ HERE DN) as (s & X & _). congruence. }
    destruct vs as [|v2 vs].
    2: { assert (Q : match v with AStr _ => d_err (EDemandNum p) st | _ => d_err (EDemandNum p) st end = d_err (EDemandNum p) st) by (destruct v; auto).
         destruct v; (eapply BAD; [reflexivity|]; intros W _; destruct (W _ _ HERE DN) as (s0 & X & _); congruence). }
    destruct v as [s0| | |]; try (eapply BAD; [reflexivity|]; intros W _; destruct (W _ _ HERE DN) as (s1 & X & _); congruence).
    destruct (valid_pattern s0) eqn:VP.
    2: { eapply BAD; [reflexivity|]. intros W _. destruct (W _ _ HERE DN) as (s1 & X & Y). congruence. }
    assert (SH : forall pats, said pats ((p, a) :: acts) p s0) by (intros pats; right; exists a; auto).
    destruct (slookup (d_pats st) p) as [s1|] eqn:LK.
    + destruct (String.eqb_spec s1 s0) as [->|NE].
      * apply SAME; auto.
        -- split; intros W q b I X; [destruct I as [I|I]; [inversion I; subst; eauto|eauto]|]. apply (W q b); [right; auto|auto].
        -- intros q s. split; intros [L|(b & I & X & Y)]; [left; auto|right; exists b; split; [right; auto|auto]|left; auto|].
           destruct I as [I|I]; [inversion I; subst; left; congruence|]. right. exists b. auto.
      * eapply BAD; [reflexivity|]. intros _ U. apply NE. apply (U p); [left; auto|auto].
    + set (st1 := mkD ((p, s0) :: d_pats st) (d_disj st) (d_errs st)).
      assert (V1 : forall q s, slookup (d_pats st1) q = Some s -> valid_pattern s = true).
      { intros q s. simpl. destruct (String.eqb p q); [intros X; inversion X; subst; auto|apply V]. }
      destruct (IH (mkD ((p, s0) :: d_pats st) [] (d_errs st)) eq_refl V1) as (I1 & I2 & I3).
      assert (SD : forall q s, said ((p, s0) :: d_pats st) acts q s <-> said (d_pats st) ((p, a) :: acts) q s).
      { intros q s. unfold said. simpl slookup. destruct (String.eqb_spec p q) as [<-|NQ].
        - split.
          + intros [X|(b & I & X)]; [inversion X; subst; exact (SH (d_pats st))|]. right. exists b. split; [right; auto|auto].
          + intros [X|(b & [I|I] & X & Y)]; [congruence| |right; exists b; auto]. inversion I; subst. left. congruence.
        - split.
          + intros [X|(b & I & X)]; [left; auto|right; exists b; split; [right; auto|auto]].
          + intros [X|(b & [I|I] & X & Y)]; [left; auto|inversion I; subst; tauto|right; exists b; auto]. }
      subst st1. rewrite D.
      split; [|split; auto].
      * rewrite I1. cbn [d_errs d_pats]. split; intros (A & B & C); (split; [auto|split]).
        -- intros q b [I|I] X; [inversion I; subst; eauto|eauto].
        -- intros q s s' X Y. apply (C q); apply SD; auto.
        -- intros q b I X. apply (B q b); [right; auto|auto].
        -- intros q s s' X Y. apply (C q); apply SD; auto.
      * intros N q s. rewrite I2 by auto. apply SD.
Qed.

Lemma kept_transform : forall items, Forall kept items -> transform items = map adorn_item items.
Proof.
  intros items H. unfold transform. assert (X : flat_map conj_items items = []).
  { induction H as [|i items K H IH]; simpl; auto. rewrite IH, app_nil_r. destruct i as [| ats [| |] | |]; simpl in *; tauto. }
  rewrite X, app_nil_r. clear X. induction H as [|i items K H IH]; simpl; auto.
  assert (E : is_conj (adorn_item i) = false).
  { destruct i as [ats rs|ats [| |]| |]; simpl in *; try tauto. destruct (has_attr "demand" ats); auto.
    destruct rs as [|r [|]]; auto. destruct (has_adornment r); auto. }
  rewrite E. simpl. rewrite IH. auto.
Qed.
(** what the transformation does to a declaration that is kept *)
Lemma adorn_kept : forall i, kept i ->
  (exists ats r, i = IType ats [r] /\ no_demand ats /\ has_adornment r = true /\ adorn_item i = IType (ats ++ [demand_attr r]) [r]) \/
  (adorn_item i = i /\ forall ats r, i = IType ats [r] -> no_demand ats -> has_adornment r = true -> False).
Proof.
  intros i K. destruct i as [ats rs|ats h|ats p|ats p]; try (right; split; [reflexivity|intros ats' r' E; discriminate]).
  cbn [adorn_item]. destruct (has_attr "demand" ats) eqn:HA.
  { right. split; auto. intros ats' r' E N _. inversion E; subst. apply has_attr_iff in HA as (a & I & X). eapply N; eauto. }
  assert (N : no_demand ats) by (intros a I X; assert (has_attr "demand" ats = true) by (apply has_attr_iff; eauto); congruence).
  assert (NA : forall r, (forall b, ~ In (Some b) (rt_args r)) -> has_adornment r = false).
  { intros r R. destruct (has_adornment r) eqn:E; auto. apply has_adornment_iff in E as [b I]. exfalso. eapply R; eauto. }
  destruct K as [(a & I & X)|[[r ->]|K]].
  - exfalso. eapply N; eauto.
  - destruct (has_adornment r) eqn:E; [left; exists ats, r; auto|]. right. split; auto. intros ats' r' E' _ X. inversion E'; subst. congruence.
  - right. assert (F : filter (fun r => negb (has_adornment r)) rs = rs).
    { clear HA N. induction rs as [|r rs IH]; simpl; auto. rewrite (NA r) by (intros b; apply K; left; auto). simpl. rewrite IH; auto.
      intros r' b I. apply K. right. auto. }
    split.
    + destruct rs as [|r [|r2 rs]]; auto; [|rewrite F; auto]. rewrite (NA r); auto. intros b. apply K. left. auto.
    + intros ats' r E _ X. inversion E; subst. rewrite (NA r) in X; [discriminate|]. intros b. apply K. left. auto.
Qed.
Lemma declares_adorn : forall i p n, kept i -> (declares (adorn_item i) p n <-> declares i p n).
Proof.
  intros i p n K. destruct (adorn_kept i K) as [(ats & r & -> & N & A & E)|[E _]]; rewrite E; [|tauto].
  split; intros D; inversion D; subst; constructor; auto.
Qed.
Lemma simple_adorn : forall i, simple i -> match adorn_item i with IRule _ (HDisj _) => False | _ => True end.
Proof. intros i [K D]. destruct (adorn_kept i K) as [(ats & r & -> & N & A & E)|[E _]]; rewrite E; auto. Qed.
Lemma demand_acts' : forall i st, simple i -> demand_visit st (adorn_item i) = run_acts (acts_of (adorn_item i)) st.
Proof.
  intros i st H. assert (K := simple_adorn H). destruct (adorn_item i) as [ats rs|ats h|ats p|ats p]; simpl in *; auto.
  - revert st. induction rs as [|r rs IH]; intros st; simpl; auto. rewrite run_app, IH, acts_one. auto.
  - destruct h; try tauto. apply acts_one.
Qed.
Lemma demand_run : forall items, Forall simple items ->
  demand_analysis (transform items) = run_acts (flat_map (fun i => acts_of (adorn_item i)) items) (mkD [] [] []).
Proof.
  intros items H. rewrite kept_transform by (eapply Forall_impl; [|exact H]; intros i [K _]; exact K).
  unfold demand_analysis. generalize (mkD [] [] []). induction H as [|i items S1 H IH]; intros st; simpl; auto.
  rewrite run_app, <- IH, demand_acts' by auto. auto.
Qed.
Lemma acts_declares : forall i p a, match i with IRule _ (HConj _) | IRule _ (HDisj _) => False | _ => True end ->
  (In (p, a) (acts_of i) <-> (exists n, declares i p n) /\ In a (item_attrs i)).
Proof.
  intros i p a H. destruct i as [ats rs|ats h|ats q|ats q]; simpl.
  - rewrite in_flat_map. split.
    + intros (r & I & X). apply in_map_iff in X as (b & E & X). inversion E; subst. split; auto. exists (List.length (rt_args r)). constructor. auto.
    + intros [[n D] I]. inversion D; subst. exists r. split; auto. apply in_map. auto.
  - destruct h; try tauto. rewrite in_map_iff. split.
    + intros (b & E & X). inversion E; subst. split; auto. eexists. constructor.
    + intros [[m D] I]. inversion D; subst. exists a. auto.
  - split; [tauto|]. intros [[n D] _]. inversion D.
  - split; [tauto|]. intros [[n D] _]. inversion D.
Qed.
Lemma in_acts : forall i p a, simple i -> (In (p, a) (acts_of (adorn_item i)) <->
  (exists n, declares i p n) /\ In a (item_attrs i) \/
  exists ats r, i = IType ats [r] /\ rt_pred r = p /\ no_demand ats /\ has_adornment r = true /\ a = demand_attr r).
Proof.
  intros i p a S1. rewrite acts_declares.
  2: { assert (K := simple_adorn S1). destruct S1 as [S1 S2]. destruct (adorn_kept i S1) as [(ats & r & -> & N & A & E)|[E _]]; rewrite E in *; auto.
       destruct i as [| ? [] | |]; simpl in *; tauto. }
  destruct S1 as [K _]. destruct (adorn_kept i K) as [(ats & r & -> & N & A & E)|[E X]]; rewrite E.
  - cbn [item_attrs]. rewrite in_app_iff. simpl. split.
    + intros [[n D] [I|[<-|[]]]].
      * left. split; auto. exists n. inversion D; subst. constructor. auto.
      * right. exists ats, r. inversion D as [? ? r0 I0| | |]; subst. destruct I0 as [->|[]]. auto 10.
    + intros [[[n D] I]|(ats' & r' & E1 & P & N' & A' & ->)].
      * split; auto. exists n. inversion D; subst. constructor. auto.
      * inversion E1; subst. split; auto. eexists. constructor. left. auto.
  - split; [tauto|]. intros [D|(ats & r & -> & P & N & A & ->)]; [auto|]. exfalso. eauto.
Qed.

(** [b] and [f] only *)
Definition bf (s : string) : Prop := forall k c, String.get k s = Some c -> c = "b"%char \/ c = "f"%char.
Lemma valid_bf : forall s, valid_pattern s = true <-> bf s.
Proof.
  induction s as [|c s IH]; simpl.
  - split; auto. intros _ k c H. destruct k; discriminate.
  - rewrite andb_true_iff, orb_true_iff, !Ascii.eqb_eq, IH. unfold bf. simpl. split.
    + intros [A B] [|k] d H; [inversion H; subst; auto|eauto].
    + intros H. split; [apply (H 0); auto|]. intros k d X. apply (H (S k)). auto.
Qed.
Lemma said_asks : forall items p s, Forall simple items ->
  (said [] (flat_map (fun i => acts_of (adorn_item i)) items) p s <-> asks items p s).
Proof.
  intros items p s H. unfold said, asks. rewrite Forall_forall in H. split.
  - intros [X|(a & I & X & Y)]; [discriminate|]. apply in_flat_map in I as (i & I & J). apply in_acts in J; auto.
    destruct J as [[[n D] J]|(ats & r & -> & P & N & A & ->)].
    + left. exists n, a. split; [exists i; auto|auto].
    + right. exists ats, r. repeat (split; [solve [auto]|]). apply adorned_iff. split; auto. inversion Y. auto.
  - intros [(n & a & (i & I & D & J) & X & Y)|(ats & r & I & P & N & A)]; right.
    + exists a. split; auto. apply in_flat_map. exists i. split; auto. apply in_acts; eauto.
    + apply adorned_iff in A as [A ->]. exists (demand_attr r). split; auto. apply in_flat_map. eexists. split; [exact I|].
      apply in_acts; auto. right. exists ats, r. auto 10.
Qed.
Lemma wf_asks : forall items, Forall simple items ->
  (well_formed (flat_map (fun i => acts_of (adorn_item i)) items) <->
   forall p n a, carries items p n a -> a_name a = "demand" -> exists s, a_pos a = [AStr s] /\ bf s).
Proof.
  intros items H. rewrite Forall_forall in H. split.
  - intros W p n a (i & I & D & J) X. destruct (W p a) as (s & P & V); auto.
    + apply in_flat_map. exists i. split; auto. apply in_acts; eauto.
    + exists s. rewrite <- valid_bf. auto.
  - intros W p a I X. apply in_flat_map in I as (i & I & J). apply in_acts in J; auto.
    destruct J as [[[n D] J]|(ats & r & -> & P & N & A & ->)].
    + destruct (W p n a) as (s & P & V); auto; [exists i; auto|]. exists s. rewrite valid_bf. auto.
    + exists (demand_of r). split; auto. apply demand_valid.
Qed.

Theorem C91_demand_errors : forall items, Forall simple items ->
  (d_errs (demand_analysis (transform items)) = [] <->
   (forall p n a, carries items p n a -> a_name a = "demand" -> exists s, a_pos a = [AStr s] /\ bf s) /\
   (forall p s s', asks items p s -> asks items p s' -> s = s')).
Proof.
  intros items H. rewrite demand_run by auto.
  destruct (run_spec (flat_map (fun i => acts_of (adorn_item i)) items) (mkD [] [] [])) as (R & _ & _); auto; [discriminate|].
  rewrite R, wf_asks by auto. cbn [d_errs d_pats]. split.
  - intros (_ & W & U). split; auto. intros p s s' X Y. apply (U p); apply said_asks; auto.
  - intros (W & U). split; auto. split; auto. intros p s s' X Y. apply (U p); apply said_asks; auto.
Qed.
Print Assumptions C91_demand_errors.

Lemma slookup_In : forall A (l : list (string * A)) k a, slookup l k = Some a -> In (k, a) l.
Proof.
  induction l as [|[j b] l IH]; simpl; intros k a H; [discriminate|].
  destruct (String.eqb_spec j k) as [->|]; [inversion H; subst; auto|auto].
Qed.
Theorem C91_demand : forall ext arity items, Forall simple items -> r_errors (analyse ext arity items) = [] ->
  (forall p s, slookup (r_demand (analyse ext arity items)) p = Some s <-> asks items p s) /\
  (forall p s, asks items p s -> bf s /\ forall n, arity p = Some n -> String.length s = n) /\
  (forall p s s', asks items p s -> asks items p s' -> s = s').
Proof.
  intros ext arity items H E. cbn [analyse r_errors r_demand] in *.
  apply app_eq_nil in E as [_ E]. apply app_eq_nil in E as [_ E]. apply app_eq_nil in E as [E1 E2].
  assert (C := proj1 (C91_demand_errors H) E1). destruct C as [_ U].
  rewrite demand_run in * by auto.
  destruct (run_spec (flat_map (fun i => acts_of (adorn_item i)) items) (mkD [] [] [])) as (_ & R2 & R3); auto; [discriminate|].
  assert (L : forall p s, slookup (d_pats (run_acts (flat_map (fun i => acts_of (adorn_item i)) items) (mkD [] [] []))) p = Some s <-> asks items p s).
  { intros p s. rewrite R2 by auto. apply said_asks. auto. }
  split; [auto|]. split; [|auto]. intros p s A. apply L in A. split; [apply valid_bf; eauto|]. intros n N.
  apply slookup_In in A. unfold check_arity in E2.
  assert (F : forall x l, In x l -> flat_map (fun x => match arity (fst x) with
    | Some n => if Nat.eqb (String.length (snd x)) n then [] else [EDemandArity (fst x)] | None => [] end) l = [] ->
    match arity (fst x) with Some n => if Nat.eqb (String.length (snd x)) n then [] else [EDemandArity (fst x)] | None => [] end = []).
  { intros x l. induction l as [|y l IH]; simpl; [tauto|]. intros [->|I] Z; apply app_eq_nil in Z as [Z1 Z2]; auto. }
  specialize (F _ _ A E2). cbn [fst snd] in F. rewrite N in F. destruct (Nat.eqb_spec (String.length s) n); [auto|discriminate].
Qed.
Print Assumptions C91_demand.

(** a program with both kinds of demand, and one with two patterns for a relation *)
Definition dem (s : string) : attr := mkAttr "demand" [AStr s] [].
Definition named (n : string) : attr := mkAttr n [] [].
Definition d_items : list aitem :=
  [IType [dem "bf"] [mkRt "p" [None; None]]; IType [named "hidden"] [mkRt "q" [Some true; None; Some false]];
   IRule [dem "bf"] (HAtom "p" 2); IRule [] (HAtom "r" 1); IQuery [] "p"].
Definition d_arity (p : string) : option nat := slookup [("p", 2); ("q", 3); ("r", 1)] p.
Lemma d_simple : Forall simple d_items.
Proof.
  unfold d_items. repeat apply Forall_cons; try apply Forall_nil; (split; [|exact Logic.I]); try exact Logic.I; right; left; eauto.
Qed.
Example C91_demand_ex : Forall simple d_items /\ r_errors (analyse (fun _ => None) d_arity d_items) = [] /\
  asks d_items "p" "bf" /\ asks d_items "q" "bff" /\
  map (slookup (r_demand (analyse (fun _ => None) d_arity d_items))) ["p"; "q"; "r"] = [Some "bf"; Some "bff"; None].
Proof.
  split; [exact d_simple|]. split; [reflexivity|]. split; [|split; [|reflexivity]].
  - left. exists 2, (dem "bf"). split; [|auto]. eexists. split; [left; reflexivity|]. split; [|left; reflexivity].
    apply (DecType [dem "bf"] [mkRt "p" [None; None]] (mkRt "p" [None; None])). left. reflexivity.
  - right. exists [named "hidden"], (mkRt "q" [Some true; None; Some false]). split; [right; left; reflexivity|]. split; [reflexivity|].
    split; [intros a [<-|[]] X; discriminate|]. apply adorned_iff. split; reflexivity.
Qed.
Example C91_demand_errors_ex :
  d_errs (demand_analysis (transform (d_items ++ [IRule [dem "fb"] (HAtom "p" 2); IRule [dem "x"] (HAtom "r" 1)]))) = [EDemandConflict "p"; EDemandPattern].
Proof. reflexivity. Qed.

(** ** Goals *)
Definition gevents (i : aitem) : list (option (string * nat)) :=
  if has_attr "goal" (item_attrs i) then
    match i with
    | IRule _ (HAtom p n) => [Some (p, n)]
    | IRule _ _ => [None]
    | IType _ rs => map (fun r => Some (rt_pred r, List.length (rt_args r))) rs
    | _ => []
    end
  else [].
Definition gstep (st : gstate) (e : option (string * nat)) : gstate :=
  match e with Some (p, n) => add_goal st p n | None => mkG (g_goals st) (g_errs st ++ [EGoalHead]) end.
Lemma goal_events : forall i st, goal_visit st i = fold_left gstep (gevents i) st.
Proof.
  intros i st. unfold gevents. destruct i as [ats rs|ats h|ats p|ats p]; simpl; try (destruct (has_attr "goal" ats); reflexivity).
  - destruct (has_attr "goal" ats); auto. revert st. induction rs as [|r rs IH]; intros st; simpl; auto.
  - destruct (has_attr "goal" ats); auto. destruct h; auto.
Qed.
Lemma gevents_adorn : forall i, kept i -> gevents (adorn_item i) = gevents i.
Proof.
  intros i K. destruct (adorn_kept i K) as [(ats & r & -> & N & A & E)|[E _]]; rewrite E; auto.
  unfold gevents. cbn [item_attrs]. assert (X : has_attr "goal" (ats ++ [demand_attr r]) = has_attr "goal" ats).
  { apply eq_true_iff_eq. rewrite !has_attr_iff. split.
    - intros (a & I & X). apply in_app_iff in I as [I|[<-|[]]]; [eauto|discriminate].
    - intros (a & I & X). exists a. split; auto. apply in_app_iff. auto. }
  rewrite X. auto.
Qed.
Lemma goal_run : forall items, Forall kept items -> goal_analysis (transform items) = fold_left gstep (flat_map gevents items) (mkG [] []).
Proof.
  intros items H. rewrite kept_transform by auto. unfold goal_analysis. generalize (mkG [] []).
  induction H as [|i items K H IH]; intros st; simpl; auto. rewrite fold_left_app, <- IH, goal_events, gevents_adorn by auto. auto.
Qed.
Lemma goal_fold : forall evs st, NoDup (g_goals st) ->
  (g_errs (fold_left gstep evs st) = [] <-> g_errs st = [] /\ forall e, In e evs -> exists p, e = Some (p, 0)) /\
  (forall p, In p (g_goals (fold_left gstep evs st)) <-> In p (g_goals st) \/ In (Some (p, 0)) evs) /\
  NoDup (g_goals (fold_left gstep evs st)).
Proof.
  induction evs as [|e evs IH]; intros st N; simpl.
  - split; [|split; [|auto]]; [|intros p; tauto]. split; [|tauto]. intros E. split; auto. intros e [].
  - assert (N' : NoDup (g_goals (gstep st e))).
    { destruct e as [[p [|n]]|]; simpl; auto. unfold add_goal. simpl. destruct (existsb (String.eqb p) (g_goals st)) eqn:X; auto.
      constructor; auto. intros I. assert (existsb (String.eqb p) (g_goals st) = true) by (apply existsb_exists; exists p; split; auto; apply String.eqb_refl). congruence. }
    destruct (IH _ N') as (I1 & I2 & I3). split; [|split; [|auto]].
    + rewrite I1. destruct e as [[p [|n]]|]; simpl.
      * split; intros [A B]; (split; [auto|]); [intros e [<-|I]; eauto|auto].
      * split; [intros [A _]; destruct (g_errs st); discriminate|]. intros [_ B]. destruct (B _ (or_introl eq_refl)) as [q X]. discriminate.
      * split; [intros [A _]; destruct (g_errs st); discriminate|]. intros [_ B]. destruct (B _ (or_introl eq_refl)) as [q X]. discriminate.
    + intros p. rewrite I2. destruct e as [[q [|n]]|]; simpl.
      * unfold add_goal. simpl. destruct (existsb (String.eqb q) (g_goals st)) eqn:X.
        -- apply existsb_exists in X as (q' & I & X). apply String.eqb_eq in X as <-. split; [tauto|]. intros [Y|[Y|Y]]; auto. inversion Y; subst. auto.
        -- simpl. split; intros [Y|Y]; auto; destruct Y as [Y|Y]; auto; [subst; auto|]. inversion Y; subst. auto.
      * split; [tauto|]. intros [Y|[Y|Y]]; auto. discriminate.
      * split; [tauto|]. intros [Y|[Y|Y]]; auto. discriminate.
Qed.
Lemma in_gevents : forall items, Forall kept items ->
  (forall p n, (exists i, In i items /\ In (Some (p, n)) (gevents i)) <->
     exists i a, In i items /\ declares i p n /\ In a (item_attrs i) /\ a_name a = "goal" /\ match i with IRule _ (HDisj _) => False | _ => True end) /\
  ((exists i, In i items /\ In None (gevents i)) <-> exists ats l a, In (IRule ats (HDisj l)) items /\ In a ats /\ a_name a = "goal").
Proof.
  intros items H. rewrite Forall_forall in H. split; [intros p n|]; split.
  - intros (i & I & X). unfold gevents in X. destruct (has_attr "goal" (item_attrs i)) eqn:E; [|destruct X].
    apply has_attr_iff in E as (a & J & N). exists i, a. destruct i as [ats rs|ats [q m|l|l]|ats q|ats q]; simpl in *; try tauto.
    + apply in_map_iff in X as (r & X & R). inversion X; subst. repeat (split; [solve [auto]|]). split; [constructor; auto|auto].
    + destruct X as [X|[]]. inversion X; subst. split; auto. split; [constructor|auto].
    + destruct X as [X|[]]; discriminate.
    + destruct X as [X|[]]; discriminate.
  - intros (i & a & I & D & J & N & X). exists i. split; auto. unfold gevents.
    assert (E : has_attr "goal" (item_attrs i) = true) by (apply has_attr_iff; eauto). rewrite E.
    inversion D as [ats rs r R|ats q m|ats l q m R|ats l q m R]; subst; simpl; auto.
    + apply in_map_iff. exists r. auto.
    + specialize (H _ I). destruct H.
  - intros (i & I & X). unfold gevents in X. destruct (has_attr "goal" (item_attrs i)) eqn:E; [|destruct X].
    apply has_attr_iff in E as (a & J & N). specialize (H _ I). destruct i as [ats rs|ats [q m|l|l]|ats q|ats q]; simpl in *; try tauto.
    + apply in_map_iff in X as (r & X & _). discriminate.
    + destruct X as [X|[]]; discriminate.
    + exists ats, l, a. auto.
  - intros (ats & l & a & I & J & N). exists (IRule ats (HDisj l)). split; auto. unfold gevents. cbn [item_attrs].
    assert (E : has_attr "goal" ats = true) by (apply has_attr_iff; eauto). rewrite E. left. auto.
Qed.

Theorem C91_goal : forall items, Forall kept items ->
  (goal_errors (goal_analysis (transform items)) = [] <->
     (forall p n, annotated items "goal" p n -> n = 0) /\
     (forall p n q m, annotated items "goal" p n -> annotated items "goal" q m -> p = q) /\
     (forall ats l a, In (IRule ats (HDisj l)) items -> In a ats -> a_name a <> "goal")) /\
  (goal_errors (goal_analysis (transform items)) = [] ->
   forall p, In p (g_goals (goal_analysis (transform items))) <-> annotated items "goal" p 0).
Proof.
  intros items H. destruct (in_gevents H) as [G1 G2]. rewrite goal_run by auto.
  destruct (goal_fold (flat_map gevents items) (mkG [] []) (NoDup_nil string)) as (F1 & F2 & F3).
  cbn [g_errs g_goals] in *. set (st := fold_left gstep (flat_map gevents items) (mkG [] [])) in *.
  assert (AN : (forall ats l a, In (IRule ats (HDisj l)) items -> In a ats -> a_name a <> "goal") ->
    forall p n, annotated items "goal" p n <-> In (Some (p, n)) (flat_map gevents items)).
  { intros ND p n. rewrite in_flat_map, G1. split.
    - intros (a & (i & I & D & J) & N). exists i, a. repeat (split; [solve [auto]|]). destruct i as [| ats [] | |]; auto. eapply ND; eauto.
    - intros (i & a & I & D & J & N & _). exists a. split; [exists i; auto|auto]. }
  assert (LEN : (if Nat.ltb 1 (List.length (g_goals st)) then [EGoalMany] else []) = [] <-> forall p q, In p (g_goals st) -> In q (g_goals st) -> p = q).
  { destruct (g_goals st) as [|p [|q l]]; simpl.
    - split; auto. intros _ p q [].
    - split; auto. intros _ x y [<-|[]] [<-|[]]. auto.
    - split; [discriminate|]. intros U. exfalso. inversion F3 as [|? ? X _]; subst. apply X. left. apply U; auto. }
  assert (MAIN : goal_errors st = [] <->
     (forall p n, annotated items "goal" p n -> n = 0) /\
     (forall p n q m, annotated items "goal" p n -> annotated items "goal" q m -> p = q) /\
     (forall ats l a, In (IRule ats (HDisj l)) items -> In a ats -> a_name a <> "goal")).
  { unfold goal_errors. split.
    - intros E. apply app_eq_nil in E as [E1 E2]. apply F1 in E1 as [_ E1]. rewrite LEN in E2.
      assert (ND : forall ats l a, In (IRule ats (HDisj l)) items -> In a ats -> a_name a <> "goal").
      { intros ats l a I J X. destruct (E1 None) as [p Y]; [|discriminate]. apply in_flat_map. apply G2. exists ats, l, a. auto. }
      assert (Z : forall p n, annotated items "goal" p n -> n = 0).
      { intros p n A. apply (AN ND) in A. destruct (E1 _ A) as [q Y]. inversion Y. auto. }
      split; auto. split; auto. intros p n q m A B. assert (n = 0) by eauto. assert (m = 0) by eauto. subst.
      apply E2; apply F2; right; apply (AN ND); auto.
    - intros (Z & U & ND). assert (E1 : g_errs st = []).
      { apply F1. split; auto. intros [[p n]|] I.
        - assert (A := I). apply (AN ND) in A. apply Z in A. subst. eauto.
        - apply in_flat_map in I. apply G2 in I as (ats & l & a & I & J & N). exfalso. eapply ND; eauto. }
      rewrite E1. simpl. apply LEN. intros p q A B. apply F2 in A as [[]|A]. apply F2 in B as [[]|B].
      apply (AN ND) in A. apply (AN ND) in B. eauto. }
  split; auto. intros E p. apply MAIN in E as (_ & _ & ND). rewrite F2, <- (AN ND). split; [intros [[]|X]; auto|auto].
Qed.
Print Assumptions C91_goal.
Definition g_items : list aitem := [IType [named "goal"] [mkRt "g" []]; IRule [named "goal"] (HAtom "g" 0); IRule [] (HAtom "h" 0)].
Example C91_goal_ex : Forall kept g_items /\ annotated g_items "goal" "g" 0 /\
  goal_errors (goal_analysis (transform g_items)) = [] /\ g_goals (goal_analysis (transform g_items)) = ["g"] /\
  goal_errors (goal_analysis (transform (g_items ++ [IRule [named "goal"] (HAtom "h" 0)]))) = [EGoalMany].
Proof.
  split; [unfold g_items; repeat apply Forall_cons; try apply Forall_nil; try exact Logic.I; right; left; eauto|]. split; [|repeat split; reflexivity].
  exists (named "goal"). split; [|reflexivity]. exists (IRule [named "goal"] (HAtom "g" 0)). split; [right; left; reflexivity|].
  split; [constructor|left; reflexivity].
Qed.

(** ** Hidden relations *)
Theorem C91_hidden : forall ext arity items p, In p (r_hidden (analyse ext arity items)) <->
  exists i a, In i items /\ In a (item_attrs i) /\ a_name a = "hidden" /\ ((exists n, declares i p n) \/ exists ats, i = IFacts ats p).
Proof.
  intros ext arity items p. cbn [analyse r_hidden]. unfold hidden_analysis.
  assert (V : forall i l, In p (hidden_visit l i) <-> In p l \/ exists a, In a (item_attrs i) /\ a_name a = "hidden" /\ ((exists n, declares i p n) \/ exists ats, i = IFacts ats p)).
  { intros i l. unfold hidden_visit. destruct (has_attr "hidden" (item_attrs i)) eqn:E.
    - apply has_attr_iff in E as (a & I & N).
      assert (X : In p (match i with IType _ rs => map rt_pred rs ++ l | IRule _ h => head_preds h ++ l | IFacts _ q => q :: l | IQuery _ _ => l end) <->
        In p l \/ ((exists n, declares i p n) \/ exists ats, i = IFacts ats p)).
      { destruct i as [ats rs|ats h|ats q|ats q].
        - rewrite in_app_iff, in_map_iff. split.
          + intros [(r & <- & R)|X]; auto. right. left. eexists. constructor. auto.
          + intros [X|[[n D]|[x X]]]; auto; [|discriminate]. inversion D; subst. left. eauto.
        - rewrite in_app_iff. split.
          + intros [X|X]; auto. right. left. destruct h as [q m|hl|hl]; simpl in X; [destruct X as [<-|[]]; eexists; constructor| |];
              apply in_map_iff in X as ([q m] & <- & R); exists m; constructor; auto.
          + intros [X|[[n D]|[x X]]]; auto; [|discriminate]. left. inversion D; subst; simpl; auto; apply in_map_iff; exists (p, n); auto.
        - simpl. split.
          + intros [<-|X]; auto. right. right. eauto.
          + intros [X|[[n D]|[x X]]]; auto; [inversion D|]. inversion X. auto.
        - split; auto. intros [X|[[n D]|[x X]]]; auto; [inversion D|discriminate]. }
      rewrite X. split; intros [Y|Y]; auto; [right; exists a; auto|]. destruct Y as (b & _ & _ & Y). auto.
    - split; auto. intros [X|(a & I & N & _)]; auto. assert (has_attr "hidden" (item_attrs i) = true) by (apply has_attr_iff; eauto). congruence. }
  assert (F : forall l0, In p (fold_left hidden_visit items l0) <-> In p l0 \/
     exists i a, In i items /\ In a (item_attrs i) /\ a_name a = "hidden" /\ ((exists n, declares i p n) \/ exists ats, i = IFacts ats p)).
  { induction items as [|i items IH]; intros l0; simpl.
    - split; auto. intros [X|(i & a & [] & _)]; auto.
    - rewrite IH, V. split.
      + intros [[X|(a & I & X)]|(j & a & I & X)]; [auto|right; exists i, a; auto|right; exists j, a; auto].
      + intros [X|(j & a & [<-|I] & X)]; [auto|left; right; exists a; auto|right; exists j, a; auto]. }
  rewrite F. simpl. tauto.
Qed.
Print Assumptions C91_hidden.
Example C91_hidden_ex : r_hidden (analyse (fun _ => None) (fun _ => None)
  [IType [named "hidden"] [mkRt "p" [None]; mkRt "q" [None]]; IRule [named "hidden"] (HConj [("r", 1); ("s", 2)]); IRule [] (HAtom "t" 1);
   IFacts [named "hidden"] "u"; IQuery [named "hidden"] "t"]) = ["u"; "r"; "s"; "p"; "q"].
Proof. reflexivity. Qed.

(** ** Schedulers *)
(** the first attribute of that name *)
Definition first_of (n : string) (l : list attr) (a : attr) : Prop :=
  exists l1 l2, l = l1 ++ a :: l2 /\ a_name a = n /\ forall b, In b l1 -> a_name b <> n.
(** the scheduler that an attribute names; beams are of size 3 unless an integer is given *)
Inductive names_sched (a : attr) : sched -> Prop :=
| NLfp : forall r, a_pos a = AStr "lfp" :: r -> names_sched a SLfp
| NDfs : forall r, a_pos a = AStr "dfs" :: r -> names_sched a SDfs
| NAstar : forall r, a_pos a = AStr "astar" :: r -> names_sched a SAstar
| NBeam3 : forall r, a_pos a = AStr "beam" :: r -> (forall z, slookup (a_kw a) "beam_size" <> Some (AInt z)) -> names_sched a (SBeam 3)
| NBeam : forall r z, a_pos a = AStr "beam" :: r -> slookup (a_kw a) "beam_size" = Some (AInt z) -> names_sched a (SBeam z).
Definition sizes_ok (items : list aitem) : Prop := forall i a k z,
  In i items -> In a (item_attrs i) -> In (k, AInt z) (a_kw a) -> (0 <= z < 2 ^ 63)%Z.
(** the relations that a type or rule declaration is about *)
Definition rels (i : aitem) : list string := match i with IType _ rs => map rt_pred rs | IRule _ h => head_preds h | _ => [] end.
Definition is_decl (i : aitem) : Prop := match i with IType _ _ | IRule _ _ => True | _ => False end.
Definition scheduled (items : list aitem) : list string :=
  flat_map (fun i => if has_attr "scheduler" (item_attrs i) then rels i else []) items.
Definition gives (items : list aitem) (p : string) (c : sched) : Prop :=
  exists i a, In i items /\ In p (rels i) /\ first_of "scheduler" (item_attrs i) a /\ names_sched a c.

Lemma first_iff : forall n l a, first_of n l a <-> find_attr n l = Some a.
Proof.
  intros n l a. unfold first_of, find_attr. split.
  - intros (l1 & l2 & -> & N & F). induction l1 as [|b l1 IH]; simpl.
    + rewrite N, String.eqb_refl. auto.
    + destruct (String.eqb_spec (a_name b) n) as [X|_]; [exfalso; apply (F b); [left|]; auto|]. apply IH. intros c I. apply F. right. auto.
  - induction l as [|b l IH]; simpl; [discriminate|]. destruct (String.eqb_spec (a_name b) n) as [X|X].
    + intros E. inversion E; subst b. exists [], l. simpl. tauto.
    + intros E. destruct (IH E) as (l1 & l2 & -> & N & F). exists (b :: l1), l2. split; auto. split; auto. intros c [<-|I]; auto.
Qed.
Definition small (a : attr) : Prop := forall k z, In (k, AInt z) (a_kw a) -> (0 <= z < 2 ^ 63)%Z.
Lemma names_iff : forall a c, small a -> (names_sched a c <-> parse_sched a = inr c).
Proof.
  intros a c B. unfold parse_sched. split.
  - intros [r E|r E|r E|r E N|r z E L]; rewrite E; try reflexivity.
    + simpl. destruct (slookup (a_kw a) "beam_size") as [[| | |]|]; auto. exfalso. eapply N; eauto.
    + simpl. rewrite L. unfold as_usize. rewrite Z.mod_small; auto. apply slookup_In in L. apply B in L. lia.
  - destruct (a_pos a) as [|[s| | |] r] eqn:E; try discriminate.
    destruct (String.eqb_spec s "lfp") as [->|_]; [intros X; inversion X; subst; eapply NLfp; eauto|].
    destruct (String.eqb_spec s "dfs") as [->|_]; [intros X; inversion X; subst; eapply NDfs; eauto|].
    destruct (String.eqb_spec s "astar") as [->|_]; [intros X; inversion X; subst; eapply NAstar; eauto|].
    destruct (String.eqb_spec s "beam") as [->|_]; [|discriminate].
    intros X. destruct (slookup (a_kw a) "beam_size") as [v|] eqn:L.
    + destruct v as [w|z| |]; inversion X; subst; try (eapply NBeam3; [eauto|]; intros z' Y; congruence).
      unfold as_usize. rewrite Z.mod_small; [eapply NBeam; eauto|]. apply slookup_In in L. apply B in L. lia.
    + inversion X; subst. eapply NBeam3; [eauto|]. intros z' Y. congruence.
Qed.
Lemma set_scheds_spec : forall c ps st,
  (s_errs (set_scheds c ps st) = [] <-> s_errs st = [] /\ NoDup ps /\ forall p, In p ps -> slookup (s_map st) p = None) /\
  (s_errs (set_scheds c ps st) = [] -> forall p d, slookup (s_map (set_scheds c ps st)) p = Some d <-> slookup (s_map st) p = Some d \/ In p ps /\ d = c).
Proof.
  induction ps as [|q ps IH]; intros st; simpl.
  - split; [|intros _ p d; tauto]. split; [|tauto]. intros E. split; auto. split; [constructor|]. intros p [].
  - destruct (slookup (s_map st) q) as [d0|] eqn:L; simpl.
    + split; [|intros E; destruct (s_errs st); discriminate]. split; [intros E; destruct (s_errs st); discriminate|].
      intros (_ & _ & N). specialize (N q (or_introl eq_refl)). congruence.
    + destruct (IH (mkS ((q, c) :: s_map st) (s_errs st))) as [I1 I2]. cbn [s_map s_errs] in *. cbn [slookup] in *.
      assert (M : s_errs st = [] /\ NoDup ps /\ (forall p, In p ps -> (if String.eqb q p then Some c else slookup (s_map st) p) = None) <->
        s_errs st = [] /\ NoDup (q :: ps) /\ (forall p, q = p \/ In p ps -> slookup (s_map st) p = None)).
      { split.
        - intros (A & B & N). split; auto. split.
          + constructor; auto. intros I. apply N in I. rewrite String.eqb_refl in I. discriminate.
          + intros p [<-|I]; auto. apply N in I. destruct (String.eqb q p); [discriminate|auto].
        - intros (A & B & N). inversion B as [|? ? B1 B2]; subst. split; auto. split; auto. intros p I.
          destruct (String.eqb_spec q p) as [->|_]; [tauto|auto]. }
      split; [rewrite I1; exact M|]. intros E p d. rewrite I2 by auto. destruct (String.eqb_spec q p) as [->|NE].
      * split; [intros [X|[I ->]]; [inversion X; subst; auto|auto]|]. intros [X|[_ ->]]; [congruence|auto].
      * split; [intros [X|[I ->]]; auto|]. intros [X|[[X|I] ->]]; [auto|tauto|auto].
Qed.
Lemma set_scheds_grow : forall c ps st, s_errs st <> [] -> s_errs (set_scheds c ps st) <> [].
Proof.
  induction ps as [|p ps IH]; intros st H; simpl; auto. destruct (slookup (s_map st) p); simpl; auto.
  destruct (s_errs st); discriminate.
Qed.
Lemma sched_grow : forall items st, s_errs st <> [] -> s_errs (fold_left sched_visit items st) <> [].
Proof.
  induction items as [|i items IH]; intros st H; simpl; auto. apply IH.
  assert (G : forall ats ps, s_errs (match find_attr "scheduler" ats with None => st | Some a => match parse_sched a with
    inl e => mkS (s_map st) (s_errs st ++ [e]) | inr c => set_scheds c ps st end end) <> []).
  { intros ats ps. destruct (find_attr _ ats); auto. destruct (parse_sched a); [simpl; destruct (s_errs st); discriminate|]. apply set_scheds_grow. auto. }
  destruct i; simpl; auto; apply G.
Qed.
Lemma NoDup_app_intro' : forall (A : Type) (l m : list A), NoDup l -> NoDup m -> (forall x, In x l -> ~ In x m) -> NoDup (l ++ m).
Proof.
  induction l as [|x l IH]; simpl; intros m N M D; auto. inversion N as [|? ? N1 N2]; subst. constructor; [|apply IH; auto].
  rewrite in_app_iff. intros [I|I]; [auto|]. apply (D x); auto.
Qed.
Lemma NoDup_app_elim' : forall (A : Type) (l m : list A), NoDup (l ++ m) -> NoDup l /\ NoDup m /\ forall x, In x l -> ~ In x m.
Proof.
  induction l as [|x l IH]; simpl; intros m N; [split; [constructor|]; auto|]. inversion N as [|? ? N1 N2]; subst.
  destruct (IH _ N2) as (A1 & A2 & A3). rewrite in_app_iff in N1. split; [constructor; auto|]. split; auto. intros y [<-|I]; auto.
Qed.
Definition parses (items : list aitem) : Prop := forall i a, In i items -> is_decl i -> find_attr "scheduler" (item_attrs i) = Some a -> exists c, parse_sched a = inr c.
Definition gives0 (items : list aitem) (p : string) (c : sched) : Prop :=
  exists i a, In i items /\ In p (rels i) /\ find_attr "scheduler" (item_attrs i) = Some a /\ parse_sched a = inr c.
Lemma sched_fold : forall items st,
  (s_errs (fold_left sched_visit items st) = [] <-> s_errs st = [] /\ parses items /\ NoDup (scheduled items) /\
     forall p, In p (scheduled items) -> slookup (s_map st) p = None) /\
  (s_errs (fold_left sched_visit items st) = [] -> forall p c,
     slookup (s_map (fold_left sched_visit items st)) p = Some c <-> slookup (s_map st) p = Some c \/ gives0 items p c).
Proof.
  induction items as [|i items IH]; intros st.
  - simpl. split.
    + split; [|tauto]. intros E. split; auto. split; [intros i a []|]. split; [constructor|intros p []].
    + intros _ p c. split; auto. intros [X|(i & a & [] & _)]. auto.
  - cbn [fold_left]. assert (SK : sched_visit st i = st -> find_attr "scheduler" (item_attrs i) = None \/ ~ is_decl i -> rels i = [] \/ find_attr "scheduler" (item_attrs i) = None ->
      (s_errs (fold_left sched_visit items (sched_visit st i)) = [] <-> s_errs st = [] /\ parses (i :: items) /\ NoDup (scheduled (i :: items)) /\
        forall p, In p (scheduled (i :: items)) -> slookup (s_map st) p = None) /\
      (s_errs (fold_left sched_visit items (sched_visit st i)) = [] -> forall p c,
        slookup (s_map (fold_left sched_visit items (sched_visit st i))) p = Some c <-> slookup (s_map st) p = Some c \/ gives0 (i :: items) p c)).
    { intros E D R. rewrite E. destruct (IH st) as [I1 I2].
      assert (Q : scheduled (i :: items) = scheduled items).
      { unfold scheduled. simpl. destruct R as [R|R]; [rewrite R; destruct (has_attr _ _); auto|]. unfold has_attr at 1. rewrite R. auto. }
      assert (P : parses (i :: items) <-> parses items).
      { split; intros P j a J; [apply P; right; auto|]. destruct J as [<-|J]; [|apply P; auto]. intros X Y. destruct D as [D|D]; [congruence|tauto]. }
      rewrite Q, P. split; auto. intros X p c. rewrite I2 by auto. split; intros [Y|(j & a & J & Z & W)]; auto.
      - right. exists j, a. split; [right; auto|auto].
      - destruct J as [<-|J]; [|right; exists j, a; auto]. destruct R as [R|R]; [rewrite R in Z; destruct Z|]. destruct W. congruence. }
    destruct (find_attr "scheduler" (item_attrs i)) as [a|] eqn:FA.
    2: { apply SK; auto. destruct i; simpl in *; auto; rewrite FA; auto. }
    assert (DC : is_decl i \/ ~ is_decl i /\ rels i = [] /\ sched_visit st i = st) by (destruct i; simpl; auto).
    destruct DC as [DC|(DC & R & E)]; [|apply SK; auto]. clear SK.
    assert (E : sched_visit st i = match parse_sched a with inl e => mkS (s_map st) (s_errs st ++ [e]) | inr c => set_scheds c (rels i) st end).
    { destruct i; simpl in *; try tauto; rewrite FA; auto. }
    assert (Q : scheduled (i :: items) = rels i ++ scheduled items).
    { unfold scheduled. simpl. unfold has_attr at 1. rewrite FA. auto. }
    rewrite E, Q. destruct (parse_sched a) as [e|c0] eqn:PS.
    + assert (G : s_errs (fold_left sched_visit items (mkS (s_map st) (s_errs st ++ [e]))) <> []) by (apply sched_grow; simpl; destruct (s_errs st); discriminate).
      split; [|tauto]. split; [tauto|]. intros (_ & P & _). destruct (P i a) as [c X]; [left|..]; auto. congruence.
    + destruct (IH (set_scheds c0 (rels i) st)) as [I1 I2]. destruct (set_scheds_spec c0 (rels i) st) as [J1 J2]. split.
      * rewrite I1. split.
        -- intros (A & P & N & F). assert (A' := A). apply J1 in A' as (A1 & A2 & A3). split; auto. split; [|split].
           ++ intros j b [<-|J]; [|apply P; auto]. intros _ X. assert (b = a) by congruence. subst. eauto.
           ++ apply NoDup_app_intro'; auto. intros p X Y. apply F in Y. assert (slookup (s_map (set_scheds c0 (rels i) st)) p = Some c0) by (apply J2; auto). congruence.
           ++ intros p X. apply in_app_iff in X as [X|X]; auto. apply F in X. destruct (slookup (s_map st) p) as [d|] eqn:L; auto.
              assert (slookup (s_map (set_scheds c0 (rels i) st)) p = Some d) by (apply J2; auto). congruence.
        -- intros (A & P & N & F). apply NoDup_app_elim' in N as (N1 & N2 & N3).
           assert (A' : s_errs (set_scheds c0 (rels i) st) = []).
           { apply J1. split; auto. split; auto. intros p X. apply F. apply in_app_iff. auto. }
           split; auto. split; [intros j b J; apply P; right; auto|]. split; auto. intros p X.
           destruct (slookup (s_map (set_scheds c0 (rels i) st)) p) as [d|] eqn:L; auto. apply J2 in L; auto. destruct L as [L|[L _]].
           ++ rewrite F in L; [discriminate|]. apply in_app_iff. auto.
           ++ exfalso. exact (N3 _ L X).
      * intros X p c. rewrite I2 by auto. apply I1 in X as (X & _). rewrite J2 by auto. split.
        -- intros [[Y|[Y ->]]|(j & b & J & Z)]; auto; right; [exists i, a; split; [left|]; auto|exists j, b; split; [right|]; auto].
        -- intros [Y|(j & b & [<-|J] & Y & Z & W)]; auto; [|right; exists j, b; auto]. left. right. split; auto. congruence.
Qed.
Theorem C91_scheduler : forall items, sizes_ok items ->
  (s_errs (sched_analysis items) = [] <->
     (forall i a, In i items -> is_decl i -> first_of "scheduler" (item_attrs i) a -> exists c, names_sched a c) /\ NoDup (scheduled items)) /\
  (s_errs (sched_analysis items) = [] -> forall p c, slookup (s_map (sched_analysis items)) p = Some c <-> gives items p c).
Proof.
  intros items B. unfold sched_analysis. destruct (sched_fold items (mkS [] [])) as [F1 F2]. cbn [s_errs s_map slookup] in *.
  assert (SM : forall i a, In i items -> find_attr "scheduler" (item_attrs i) = Some a -> small a).
  { intros i a I E k z K. unfold find_attr in E. apply find_some in E as [E _]. eapply B; eauto. }
  split.
  - rewrite F1. split.
    + intros (_ & P & N & _). split; auto. intros i a I D F. apply first_iff in F. destruct (P i a) as [c X]; auto. exists c. apply names_iff; eauto.
    + intros [P N]. split; auto. split; [|split; auto]. intros i a I D F. destruct (P i a) as [c X]; auto; [apply first_iff; auto|]. exists c. apply names_iff; eauto.
  - intros E p c. rewrite F2 by auto. split.
    + intros [X|(i & a & I & X & Y & Z)]; [discriminate|]. exists i, a. split; auto. split; auto. split; [apply first_iff; auto|]. apply names_iff; eauto.
    + intros (i & a & I & X & Y & Z). right. apply first_iff in Y. exists i, a. repeat (split; [solve [auto]|]). apply names_iff; eauto.
Qed.
Print Assumptions C91_scheduler.
Definition schd (s : string) (kw : list (string * aval)) : attr := mkAttr "scheduler" [AStr s] kw.
Definition s_items : list aitem :=
  [IType [schd "beam" [("beam_size", AInt 5%Z)]] [mkRt "p" [None]; mkRt "q" [None]]; IRule [schd "dfs" []] (HConj [("r", 1); ("s", 1)]); IRule [] (HAtom "p" 1)].
Example C91_scheduler_ex : sizes_ok s_items /\ s_errs (sched_analysis s_items) = [] /\
  map (slookup (s_map (sched_analysis s_items))) ["p"; "q"; "r"; "s"; "t"] = [Some (SBeam 5); Some (SBeam 5); Some SDfs; Some SDfs; None] /\
  s_errs (sched_analysis (s_items ++ [IRule [schd "lfp" []] (HAtom "p" 1)])) = [ESchedTwice "p"].
Proof.
  split; [|repeat split; reflexivity]. intros i a k z I A K. simpl in I. destruct I as [<-|[<-|[<-|[]]]]; simpl in A; destruct A as [<-|[]] || destruct A; simpl in K.
  - destruct K as [K|[]]. inversion K. lia.
  - destruct K.
Qed.

Definition an0 (items : list aitem) : result := analyse (fun _ => None) d_arity items.
(** Everything together: what is found when a program is accepted, and when it is accepted. *)
Theorem C91_result : forall ext arity items, Forall simple items -> sizes_ok items ->
  (r_errors (analyse ext arity items) = [] <->
     goal_errors (goal_analysis (transform items)) = [] /\ s_errs (sched_analysis items) = [] /\
     d_errs (demand_analysis (transform items)) = [] /\
     forall p s n, asks items p s -> arity p = Some n -> String.length s = n) /\
  (r_errors (analyse ext arity items) = [] ->
     (forall p, In p (r_goals (analyse ext arity items)) <-> annotated items "goal" p 0) /\
     (forall p c, slookup (r_sched (analyse ext arity items)) p = Some c <-> gives items p c)).
Proof.
  intros ext arity items H B. assert (K : Forall kept items) by (eapply Forall_impl; [|exact H]; intros i [X _]; exact X).
  split.
  - split.
    + intros E. destruct (C91_demand ext arity H E) as (_ & L & _). cbn [analyse r_errors] in E.
      apply app_eq_nil in E as [E1 E]. apply app_eq_nil in E as [E2 E]. apply app_eq_nil in E as [E3 E4].
      repeat (split; [assumption|]). intros p s n A N. apply (L p s); auto.
    + intros (E1 & E2 & E3 & E4). cbn [analyse r_errors]. rewrite E1, E2, E3. simpl. unfold check_arity.
      assert (L : forall p s, In (p, s) (d_pats (demand_analysis (transform items))) -> asks items p s).
      { rewrite demand_run in * by auto. intros p s I.
        destruct (run_spec (flat_map (fun i => acts_of (adorn_item i)) items) (mkD [] [] [])) as (_ & R2 & _); auto; [discriminate|].
        apply (said_asks p s H). apply R2; auto.
        assert (ND : forall acts st, NoDup (map fst (d_pats st)) -> NoDup (map fst (d_pats (run_acts acts st)))).
        { clear. induction acts as [|[p a] acts IH]; intros st N; simpl; auto. apply IH. unfold process_attribute.
          set (st1 := if existsb (String.eqb p) (d_disj st) then _ else _).
          assert (N1 : NoDup (map fst (d_pats st1))) by (unfold st1; destruct (existsb _ _); auto).
          destruct (String.eqb (a_name a) "demand"); auto. destruct (a_pos a) as [|v vs]; auto. destruct v, vs; auto. destruct (valid_pattern s); auto.
          destruct (slookup (d_pats st1) p) eqn:E; auto; [destruct (String.eqb s0 s); auto|]. simpl. constructor; auto.
          intros I. apply in_map_iff in I as ([q t] & <- & I). simpl in E. clear -E I. induction (d_pats st1) as [|[j b] l IH]; simpl in *; auto.
          destruct (String.eqb_spec j q); [discriminate|]. destruct I as [I|I]; [inversion I; tauto|auto]. }
        specialize (ND (flat_map (fun i => acts_of (adorn_item i)) items) (mkD [] [] []) (NoDup_nil _)). revert I ND.
        generalize (d_pats (run_acts (flat_map (fun i => acts_of (adorn_item i)) items) (mkD [] [] []))). clear.
        induction l as [|[j b] l IH]; simpl; intros I N; [tauto|]. inversion N as [|? ? N1 N2]; subst. destruct I as [I|I].
        - inversion I; subst. rewrite String.eqb_refl. auto.
        - destruct (String.eqb_spec j p) as [->|]; auto. exfalso. apply N1. apply in_map_iff. exists (p, s). auto. }
      revert L. generalize (d_pats (demand_analysis (transform items))). induction l as [|[p s] l IH]; intros L; simpl; auto.
      rewrite IH by (intros q t I; apply L; right; auto). rewrite app_nil_r. destruct (arity p) as [n|] eqn:A; auto.
      rewrite (E4 p s n); [|apply L; left; auto|auto]. rewrite Nat.eqb_refl. auto.
  - intros E. cbn [analyse r_errors] in E. apply app_eq_nil in E as [E1 E]. apply app_eq_nil in E as [E2 E].
    split; [apply (C91_goal K); auto|apply (C91_scheduler B); auto].
Qed.
Print Assumptions C91_result.
Example C91_result_ex : Forall simple d_items /\ sizes_ok d_items /\ r_errors (an0 d_items) = [] /\
  r_errors (an0 (d_items ++ [IType [named "goal"; schd "dfs" []] [mkRt "g" []]])) = [] /\
  r_goals (an0 (d_items ++ [IType [named "goal"; schd "dfs" []] [mkRt "g" []]])) = ["g"] /\
  r_sched (an0 (d_items ++ [IType [named "goal"; schd "dfs" []] [mkRt "g" []]])) = [("g", SDfs)].
Proof.
  split; [exact d_simple|]. split; [|repeat split; reflexivity]. intros i a k z I A K. unfold d_items in I. simpl in I.
  destruct I as [<-|[<-|[<-|[<-|[<-|[]]]]]]; simpl in A; try tauto; destruct A as [<-|[]]; simpl in K; tauto.
Qed.

(** ** Refutations *)
Definition no_ext : string -> option string := fun _ => None.
Definition an (items : list aitem) : result := analyse no_ext (fun _ => None) items.

(** A relation with annotated arguments that is declared together with others loses its demand and its whole
    declaration, without an error. *)
Theorem C91_adorned_refuted : exists items ats rs r s, In (IType ats rs) items /\ In r rs /\ no_demand ats /\ adorned r s /\
  r_errors (an items) = [] /\ slookup (r_demand (an items)) (rt_pred r) = None /\
  forall i n, In i (transform items) -> ~ declares i (rt_pred r) n.
Proof.
  exists [IType [] [mkRt "p" [Some true; None]; mkRt "q" [None]]], [], [mkRt "p" [Some true; None]; mkRt "q" [None]], (mkRt "p" [Some true; None]), "bf".
  split; [left; reflexivity|]. split; [left; reflexivity|]. split; [intros a []|]. split; [apply adorned_iff; split; reflexivity|].
  split; [reflexivity|]. split; [reflexivity|]. intros i n I D. simpl in I. destruct I as [<-|[]].
  inversion D as [ats rs r R E1 E2| | |]; subst. simpl in R. destruct R as [<-|[]]. discriminate.
Qed.
Print Assumptions C91_adorned_refuted.
(** Goals and demand on a rule with a conjunctive head are dropped, whatever they say. *)
Theorem C91_conj_refuted : exists items, annotated items "goal" "g" 0 /\ annotated items "goal" "p" 2 /\
  (exists n, carries items "p" n (dem "nonsense")) /\
  r_errors (an items) = [] /\ r_goals (an items) = [] /\ r_demand (an items) = [].
Proof.
  exists [IRule [named "goal"; dem "nonsense"] (HConj [("g", 0); ("p", 2)])].
  split; [|split; [|split; [|repeat split; reflexivity]]].
  - exists (named "goal"). split; [|reflexivity]. eexists. split; [left; reflexivity|]. split; [constructor; left; reflexivity|left; reflexivity].
  - exists (named "goal"). split; [|reflexivity]. eexists. split; [left; reflexivity|]. split; [constructor; right; left; reflexivity|left; reflexivity].
  - exists 2. eexists. split; [left; reflexivity|]. split; [constructor; right; left; reflexivity|right; left; reflexivity].
Qed.
Print Assumptions C91_conj_refuted.
(** Demand on a relation of a disjunctive head is rejected for the first relation of the head only. *)
Theorem C91_disj_refuted : exists l p q, In (p, 1) l /\ In (q, 1) l /\
  r_errors (an [IRule [] (HDisj l); IType [dem "b"] [mkRt p [None]]]) <> [] /\
  r_errors (an [IRule [] (HDisj l); IType [dem "b"] [mkRt q [None]]]) = [] /\
  slookup (r_demand (an [IRule [] (HDisj l); IType [dem "b"] [mkRt q [None]]])) q = Some "b".
Proof.
  exists [("p", 1); ("q", 1)], "p", "q". split; [left; reflexivity|]. split; [right; left; reflexivity|].
  split; [discriminate|]. split; reflexivity.
Qed.
Print Assumptions C91_disj_refuted.
(** A program without any demand is rejected for demand on a disjunctive relation, or accepted, depending on the
    order of its declarations. *)
Theorem C91_order_refuted : exists i j, (forall p n a, carries [i; j] p n a -> a_name a <> "demand") /\
  r_errors (an [i; j]) = [EDemandDisj "p"] /\ r_errors (an [j; i]) = [].
Proof.
  exists (IRule [] (HDisj [("p", 1); ("q", 1)])), (IType [named "hidden"] [mkRt "p" [None]]).
  split; [|split; reflexivity]. intros p n a (i & I & D & A). simpl in I. destruct I as [<-|[<-|[]]]; simpl in A; [destruct A|].
  destruct A as [<-|[]]. discriminate.
Qed.
Print Assumptions C91_order_refuted.
(** An attribute [file] without a file is found but not reported. *)
Theorem C91_output_refuted : exists items, f_errs (file_analysis no_ext items) <> [] /\ r_errors (an items) = [] /\ r_file (an items) = [].
Proof. exists [IQuery [named "file"] "p"]. split; [discriminate|]. split; reflexivity. Qed.
Print Assumptions C91_output_refuted.
(** A negative size of a beam is a huge one. *)
Theorem C91_beam_refuted : exists items a, carries items "p" 1 a /\ slookup (a_kw a) "beam_size" = Some (AInt (-1)%Z) /\
  r_errors (an items) = [] /\ slookup (r_sched (an items)) "p" = Some (SBeam (2 ^ 64 - 1)).
Proof.
  exists [IRule [schd "beam" [("beam_size", AInt (-1)%Z)]] (HAtom "p" 1)], (schd "beam" [("beam_size", AInt (-1)%Z)]).
  split; [|repeat split; reflexivity]. eexists. split; [left; reflexivity|]. split; [constructor|left; reflexivity].
Qed.
Print Assumptions C91_beam_refuted.
