(** C89: facts enter the engine if they have the types of their relations, and mean the same
    inside and outside. *)
From Coq Require Import List ZArith Bool String Lia.
From Verif Require Import Value Back Eval TypeSet Infer Front Cast Entity Utils PropsUtils Boundary.
Import ListNotations.
Set Implicit Arguments.

(** ** Specification *)
(** Typing of tuples. *)
Inductive has_type : tuple -> ttype -> Prop :=
| HasVal : forall v, has_type (TVal v) (TyVal (val_type v))
| HasTup : forall ts ys, Forall2 has_type ts ys -> has_type (TTup ts) (TyTup ys).

(** [stands n ids t u]: inside, [u] stands for what [t] is outside, if symbols have the names [n] and
    entity strings the ids [ids]. *)
Inductive stands (n : Z -> option string) (ids : string -> option value) : tuple -> tuple -> Prop :=
| StSymbol : forall s z, n z = Some s -> stands n ids (TVal (VSymbolString s)) (TVal (VSymbol z))
| StEntity : forall s v, ids s = Some v -> stands n ids (TVal (VEntityString s)) (TVal v)
| StSame : forall v, (forall s, v <> VSymbolString s) -> (forall s, v <> VEntityString s) -> stands n ids (TVal v) (TVal v)
| StTup : forall ts us, Forall2 (stands n ids) ts us -> stands n ids (TTup ts) (TTup us).

(** [within p t]: all values in [t] satisfy [p]. *)
Inductive within (p : value -> Prop) : tuple -> Prop :=
| WiVal : forall v, p v -> within p (TVal v)
| WiTup : forall ts, Forall (within p) ts -> within p (TTup ts).

(** The names that a registry gives to symbols. *)
Definition names (r : registry) (z : Z) : option string := if (z <? 0)%Z then None else nth_error (id_to_sym r) (Z.to_nat z).
(** [r'] has all the names of [r]. *)
Definition grows (r r' : registry) : Prop := forall z s, names r z = Some s -> names r' z = Some s.

(** ** Facts about types *)
Lemma vt_eqb_iff : forall a b, vt_eqb a b = true <-> a = b.
Proof. intros. unfold vt_eqb. destruct (vtype_eq_dec a b); split; congruence. Qed.

Section TypeInd.
  Variable P : ttype -> Prop.
  Hypothesis HV : forall v, P (TyVal v).
  Hypothesis HT : forall ts, Forall P ts -> P (TyTup ts).
  Fixpoint ttype_ind' (t : ttype) : P t :=
    match t with
    | TyVal v => HV v
    | TyTup ts => HT ((fix go l : Forall P l :=
        match l with [] => Forall_nil P | x :: r => Forall_cons x (ttype_ind' x) (go r) end) ts)
    end.
End TypeInd.

Lemma matches_tup : forall ys ts, ty_matches (TyTup ys) (TTup ts) = true <->
  List.length ys = List.length ts /\ Forall2 (fun t y => ty_matches y t = true) ts ys.
Proof.
  intros ys ts. cbn [ty_matches]. destruct (Nat.eqb (List.length ys) (List.length ts)) eqn:E.
  - apply Nat.eqb_eq in E. split.
    + intros H. split; auto. revert ts E H. induction ys as [|y ys IH]; intros [|t ts] E H; try discriminate; constructor.
      * apply andb_true_iff in H. tauto.
      * apply IH; [simpl in E; lia|]. apply andb_true_iff in H. tauto.
    + intros [_ H]. clear E. induction H; auto. apply andb_true_iff. auto.
  - apply Nat.eqb_neq in E. split; [discriminate|]. intros [H _]. lia.
Qed.

Lemma matches_iff : forall y t, ty_matches y t = true <-> has_type t y.
Proof.
  induction y as [y|ys IH] using ttype_ind'; intros [v|ts].
  - simpl. rewrite vt_eqb_iff. split; [intros <-; constructor|intros H; inversion H; auto].
  - simpl. split; [discriminate|intros H; inversion H].
  - simpl. split; [discriminate|intros H; inversion H].
  - rewrite matches_tup. split.
    + intros [_ H]. constructor. revert IH. induction H; intros IH; constructor; inversion IH; subst; auto. apply H3. auto.
    + intros H. inversion H as [|? ? F]; subst. split; [symmetry; clear -F; induction F; simpl; auto|].
      clear H. revert IH. induction F; intros IH; constructor; inversion IH; subst; auto. apply H2. auto.
Qed.

Lemma has_type_of : forall t, has_type t (type_of t).
Proof.
  induction t as [v|ts IH] using gtuple_ind'; simpl; constructor. induction IH; simpl; constructor; auto.
Qed.

(** ** Adding facts *)
Section AddProps.
  Variable IT : Type.
  Implicit Types (d : bdb IT) (fs : list (IT * tuple)).

  Lemma check_types_spec : forall y fs,
    (check_types y fs = None <-> exists y', y = Some y' /\ forall f, In f fs -> has_type (snd f) y') /\
    (forall t, check_types y fs = Some (TypeMismatch t) -> exists y', y = Some y' /\ In t (map snd fs) /\ ~ has_type t y') /\
    (check_types y fs = Some UnknownRelation <-> y = None).
  Proof.
    intros [y|] fs; simpl.
    - destruct (find (fun f => negb (ty_matches y (snd f))) fs) as [f|] eqn:E; simpl.
      + apply find_some in E as [I N]. apply negb_true_iff in N.
        assert (H : ~ has_type (snd f) y) by (rewrite <- matches_iff; congruence).
        split; [split; [discriminate|]|split].
        * intros (y' & X & A). inversion X; subst. exfalso. auto.
        * intros t X. inversion X; subst. exists y. split; auto. split; auto. apply in_map. auto.
        * split; discriminate.
      + split; [split; [|auto]|split; [discriminate|split; discriminate]].
        intros _. exists y. split; auto. intros f I. apply (find_none _ _ E) in I. apply negb_false_iff in I. apply matches_iff. auto.
    - split; [split; [discriminate|intros (y' & X & _); discriminate]|]. split; [discriminate|]. tauto.
  Qed.

  (** Facts are added through a context exactly if the relation is known and all of them have its type, or
      no check is asked for; an error says what is wrong and changes nothing. *)
  Theorem C89_add : forall types check (c : bctx IT) r fs e c', bd_check (bc_db c) = false ->
    ctx_add_facts types check c r fs = (e, c') ->
    (e = None <-> (check = true -> exists y, types r = Some y /\ forall f, In f fs -> has_type (snd f) y)) /\
    (e = Some UnknownRelation -> types r = None) /\
    (forall t, e = Some (TypeMismatch t) -> exists y, types r = Some y /\ In t (map snd fs) /\ ~ has_type t y) /\
    (e <> None -> c' = c) /\
    (e = None -> bd_input (bc_db c') r = bd_input (bc_db c) r ++ fs /\
                 (forall q, q <> r -> bd_input (bc_db c') q = bd_input (bc_db c) q) /\
                 (forall q, In q (bc_computed c') <-> In q (bc_computed c) /\ (q = r -> fs = []))).
  Proof.
    intros types check c r fs e c' Off H. unfold ctx_add_facts in H.
    assert (Q : forall fs, exec_add_facts c r fs = (None, mkBctx (match fs with [] => bc_computed c | _ => filter (fun q => negb (Nat.eqb q r)) (bc_computed c) end) (db_insert (bc_db c) r fs))).
    { intros. unfold exec_add_facts, db_add_facts. rewrite Off. auto. }
    rewrite Q in H. clear Q.
    assert (K : bd_input (db_insert (bc_db c) r fs) r = bd_input (bc_db c) r ++ fs /\
                (forall q, q <> r -> bd_input (db_insert (bc_db c) r fs) q = bd_input (bc_db c) q) /\
                (forall q, In q (match fs with [] => bc_computed c | _ => filter (fun q => negb (Nat.eqb q r)) (bc_computed c) end) <->
                           In q (bc_computed c) /\ (q = r -> fs = []))).
    { unfold db_insert; simpl. rewrite Nat.eqb_refl. split; auto. split.
      - intros q N. apply Nat.eqb_neq in N. rewrite N. auto.
      - intros q. destruct fs as [|f fs]; [tauto|]. rewrite filter_In, negb_true_iff, Nat.eqb_neq. split.
        + intros [I N]. split; auto. intros. contradiction.
        + intros [I N]. split; auto. intros X. specialize (N X). discriminate. }
    destruct check.
    - destruct (check_types_spec (types r) fs) as (C1 & C2 & C3).
      destruct (check_types (types r) fs) as [x|] eqn:E; inversion H; subst.
      + split; [split; [discriminate|intros X; apply C1 in X; auto; discriminate]|].
        split; [intros X; apply C3; auto|]. split; [intros t X; apply C2; auto|]. split; [auto|discriminate].
      + split; [split; [intros _ _; apply C1; auto|auto]|]. split; [discriminate|]. split; [discriminate|]. split; [tauto|]. intros _. apply K.
    - inversion H; subst. split; [split; [discriminate|auto]|]. split; [discriminate|]. split; [discriminate|]. split; [tauto|]. intros _. apply K.
  Qed.

  (** A database that checks adds exactly the facts of the types it knows, or nothing. *)
  Theorem C89_database : forall d r fs e d', bd_check d = true -> db_add_facts d r fs = (e, d') ->
    (e = None <-> exists y, type_lookup (bd_types d) r = Some y /\ forall f, In f fs -> has_type (snd f) y) /\
    (e <> None -> d' = d) /\
    (e = None -> bd_input d' r = bd_input d r ++ fs /\ forall q, q <> r -> bd_input d' q = bd_input d q).
  Proof.
    intros d r fs e d' On H. unfold db_add_facts in H. rewrite On in H.
    destruct (check_types_spec (type_lookup (bd_types d) r) fs) as (C1 & _).
    destruct (check_types (type_lookup (bd_types d) r) fs) as [x|]; inversion H; subst.
    - split; [split; [discriminate|intros X; apply C1 in X; discriminate]|]. split; [auto|discriminate].
    - split; [split; [intros _; apply C1; auto|auto]|]. split; [tauto|]. intros _. unfold db_insert; simpl. rewrite Nat.eqb_refl. split; auto.
      intros q N. apply Nat.eqb_neq in N. rewrite N. auto.
  Qed.
End AddProps.

(** ** Translation *)
Section TranslateProps.
  Variable h : string -> list feed -> Z.
  Variable cv : conv.
  Variable parse : string -> option ent.
  Variable vars : string -> option variant.
  Notation internalize_value := (internalize_value h cv parse vars).
  Notation internalize_tuple := (internalize_tuple h cv parse vars).
  Notation internalize_all := (internalize_all h cv parse vars).

  (** The entity that a string names. *)
  Definition entity_of (s : string) : option value :=
    match parse s with
    | Some x => match parse_entity h cv vars x TEntity with Some (_, v) => Some v | None => None end
    | None => None
    end.
  Definition readable (v : value) : Prop := forall s, v = VEntityString s -> entity_of s <> None.

  Lemma entity_of_type : forall s v, entity_of s = Some v -> exists z, v = VEntity z.
  Proof.
    unfold entity_of. intros s v. destruct (parse s) as [x|]; [|discriminate].
    destruct x as [[l k]|x| |l f args]; simpl; try discriminate.
    - destruct k; simpl; discriminate.
    - destruct (vars f) as [va|]; simpl; [|discriminate]. destruct (va_types va) as [|ty tys]; [discriminate|].
      destruct (Nat.eqb (List.length tys) (List.length args)); [|discriminate].
      match goal with |- context [obnd ?x _] => destruct x end; simpl; [|discriminate].
      intros H. inversion H. eauto.
  Qed.

  Fixpoint internalize_list (e : benv) (ts : list tuple) : option (list tuple) * benv :=
    match ts with
    | [] => (Some [], e)
    | t :: ts =>
        match internalize_tuple e t with
        | (None, e1) => (None, e1)
        | (Some u, e1) => let (o, e2) := internalize_list e1 ts in (option_map (cons u) o, e2)
        end
    end.
  Lemma internalize_tup : forall e ts,
    internalize_tuple e (TTup ts) = let (o, e1) := internalize_list e ts in (option_map TTup o, e1).
  Proof.
    intros. cbn [Boundary.internalize_tuple]. 
    match goal with |- (let (_, _) := ?f e ts in _) = _ => assert (Q : forall ts e, f e ts = internalize_list e ts) end.
    { clear. induction ts as [|t ts IH]; intros e; simpl; [reflexivity|]. destruct (internalize_tuple e t) as [[u|] e1]; [|reflexivity]. rewrite IH. reflexivity. }
    rewrite Q. auto.
  Qed.

  Lemma grows_refl : forall r, grows r r. Proof. intros r z s; auto. Qed.
  Lemma grows_trans : forall a b c, grows a b -> grows b c -> grows a c. Proof. intros a b c X Y z s; auto. Qed.

  Lemma stands_mono : forall (n n' : Z -> option string) ids, (forall z s, n z = Some s -> n' z = Some s) ->
    forall t u, stands n ids t u -> stands n' ids t u.
  Proof.
    intros n n' ids G. induction t as [v|ts IH] using gtuple_ind'; intros u H; inversion H; subst.
    - apply StSymbol. auto.
    - apply StEntity. auto.
    - apply StSame; auto.
    - apply StTup. revert us H1 H. induction IH as [|t ts Ht IH IHl]; intros us F H; inversion F; subst; constructor; auto.
      apply IHl; auto. constructor; auto.
  Qed.

  Lemma internalize_value_spec : forall e v o e', reg_ok (b_syms e) -> internalize_value e v = (o, e') ->
    reg_ok (b_syms e') /\ grows (b_syms e) (b_syms e') /\ (exists l, b_ents e' = b_ents e ++ l) /\
    (o = None <-> ~ readable v) /\ (forall u, o = Some u -> stands (names (b_syms e')) entity_of (TVal v) (TVal u)).
  Proof.
    intros e v o e' R H.
    assert (D : (forall s, v <> VSymbolString s) -> (forall s, v <> VEntityString s) -> internalize_value e v = (Some v, e)).
    { intros N1 N2. destruct v; simpl; auto; exfalso; [eapply N1|eapply N2]; eauto. }
    assert (K : (exists s, v = VSymbolString s) \/ (exists s, v = VEntityString s) \/ (forall s, v <> VSymbolString s) /\ (forall s, v <> VEntityString s)).
    { destruct v; eauto; right; right; split; intros; discriminate. }
    destruct K as [[s ->]|[[s ->]|[N1 N2]]].
    - simpl in H. pose proof (register_step s R) as S1. destruct (register (b_syms e) s) as [r i]. destruct S1 as (R1 & Ni & M).
      inversion H; subst; simpl. split; auto. split.
      + intros z t. unfold names. destruct (z <? 0)%Z; auto.
      + split; [exists []; rewrite app_nil_r; auto|]. split.
        * split; [discriminate|]. intros X. exfalso. apply X. intros t Y. discriminate.
        * intros u X. inversion X; subst. apply StSymbol. unfold names.
          destruct (Z.of_nat i <? 0)%Z eqn:E; [apply Z.ltb_lt in E; lia|]. rewrite Nat2Z.id. auto.
    - simpl in H. unfold entity_of, readable. destruct (parse s) as [x|] eqn:P; simpl in H.
      + destruct (parse_entity h cv vars x TEntity) as [[fs id]|] eqn:Q; inversion H; subst; simpl.
        * split; auto. split; [apply grows_refl|]. split; [eauto|]. split.
          -- split; [discriminate|]. intros X. exfalso. apply X. intros t Y. inversion Y; subst. unfold entity_of. rewrite P, Q. discriminate.
          -- intros u X. inversion X; subst. apply StEntity. rewrite P, Q. auto.
        * split; auto. split; [apply grows_refl|]. split; [exists []; rewrite app_nil_r; auto|]. split; [|discriminate].
          split; auto. intros _ X. apply (X s eq_refl). unfold entity_of. rewrite P, Q. auto.
      + inversion H; subst. split; auto. split; [apply grows_refl|]. split; [exists []; rewrite app_nil_r; auto|]. split; [|discriminate].
        split; auto. intros _ X. apply (X s eq_refl). unfold entity_of. rewrite P. auto.
    - rewrite D in H; auto. inversion H; subst. split; auto. split; [apply grows_refl|]. split; [exists []; rewrite app_nil_r; auto|].
      split; [split; [discriminate|intros X; exfalso; apply X; intros s Y; exfalso; eapply N2; eauto]|].
      intros u X. inversion X; subst. apply StSame; auto.
  Qed.

  Definition spec_of (T : Type) (e e' : benv) (o : option T) (good : Prop) (st : T -> Prop) : Prop :=
    reg_ok (b_syms e') /\ grows (b_syms e) (b_syms e') /\ (exists l, b_ents e' = b_ents e ++ l) /\
    (o = None <-> ~ good) /\ (o <> None -> good) /\ (forall u, o = Some u -> st u).

  Lemma internalize_spec : forall t e o e', reg_ok (b_syms e) -> internalize_tuple e t = (o, e') ->
    spec_of e e' o (within readable t) (fun u => stands (names (b_syms e')) entity_of t u).
  Proof.
    induction t as [v|ts IH] using gtuple_ind'; intros e o e' R H.
    - cbn [Boundary.internalize_tuple] in H. destruct (internalize_value e v) as [o1 e1] eqn:E.
      destruct (@internalize_value_spec _ v _ _ R E) as (R1 & G & L & N & S1). inversion H; subst.
      split; auto. split; auto. split; auto. split; [|split].
      + split.
        * intros X W. destruct o1; [discriminate|]. inversion W; subst. apply N; auto.
        * intros X. destruct o1; auto. exfalso. apply X. constructor. intros s Y Z.
          assert (Some v0 = None); [|discriminate]. apply N. intros W. apply (W s Y). auto.
      + intros X. destruct o1 as [u|]; [|simpl in X; tauto]. constructor. intros s Y Z.
        assert (Some u = None); [|discriminate]. apply N. intros W. apply (W s Y). auto.
      + intros u X. destruct o1; inversion X; subst. apply S1; auto.
    - rewrite internalize_tup in H. destruct (internalize_list e ts) as [o1 e1] eqn:E. inversion H; subst. clear H.
      assert (Q : spec_of e e' o1 (Forall (within readable) ts) (fun us => Forall2 (stands (names (b_syms e')) entity_of) ts us)).
      { revert e o1 e' R E. induction IH as [|t ts Ht IH IHl]; intros e o1 e' R E; simpl in E.
        - inversion E; subst. split; auto. split; [apply grows_refl|]. split; [exists []; rewrite app_nil_r; auto|].
          split; [split; [discriminate|intros X; exfalso; apply X; constructor]|]. split; [constructor|]. intros u X. inversion X. constructor.
        - destruct (internalize_tuple e t) as [[u|] e1] eqn:Et.
          + destruct (internalize_list e1 ts) as [o2 e2] eqn:El. inversion E; subst.
            destruct (Ht _ _ _ R Et) as (R1 & G1 & [l1 L1] & N1 & Y1 & S1). destruct (IHl _ _ _ R1 El) as (R2 & G2 & [l2 L2] & N2 & Y2 & S2).
            assert (W : within readable t) by (apply Y1; discriminate).
            split; auto. split; [eapply grows_trans; eauto|]. split; [exists (l1 ++ l2); rewrite L2, L1, app_assoc; auto|]. split; [|split].
            * split.
              -- intros X F. destruct o2; [discriminate|]. inversion F; subst. apply N2; auto.
              -- intros X. destruct o2; auto. exfalso. apply X. constructor; auto. apply Y2. discriminate.
            * intros X. constructor; auto. apply Y2. destruct o2; [discriminate|simpl in X; tauto].
            * intros us X. destruct o2 as [us2|]; inversion X; subst. constructor; [|apply S2; auto].
              eapply stands_mono; [exact G2|]. apply S1. auto.
          + inversion E; subst. destruct (Ht _ _ _ R Et) as (R1 & G1 & L1 & N1 & Y1 & S1).
            split; auto. split; auto. split; auto. split; [|split; [tauto|discriminate]].
            split; auto. intros _ F. inversion F; subst. apply N1; auto. }
      destruct Q as (R1 & G & L & N & Y & S1). split; auto. split; auto. split; auto. split; [|split].
      + split.
        * intros X W. destruct o1; [discriminate|]. inversion W; subst. apply N; auto.
        * intros X. destruct o1; auto. exfalso. apply X. constructor. apply Y. discriminate.
      + intros X. constructor. apply Y. destruct o1; [discriminate|simpl in X; tauto].
      + intros u X. destruct o1; inversion X; subst. constructor. apply S1; auto.
  Qed.

  Lemma stands_typed : forall n t u y, stands n entity_of t u -> (has_type t y <-> has_type u y).
  Proof.
    intros n. induction t as [v|ts IH] using gtuple_ind'; intros u y H; inversion H; subst.
    - split; intros X; inversion X; subst; [apply (HasVal (VSymbol z))|apply (HasVal (VSymbolString s))].
    - apply entity_of_type in H1 as [z ->]. split; intros X; inversion X; subst; [apply (HasVal (VEntity z))|apply (HasVal (VEntityString s))].
    - tauto.
    - assert (Q : forall ys, Forall2 has_type ts ys <-> Forall2 has_type us ys).
      { clear H. revert us H1. induction IH as [|t ts Ht IH IHl]; intros us F ys; inversion F; subst; [tauto|].
        split; intros X; inversion X; subst; constructor.
        - eapply Ht; eauto.
        - eapply IHl; eauto.
        - eapply Ht; eauto.
        - eapply IHl; eauto. }
      split; intros X; inversion X; subst; constructor; apply Q; auto.
  Qed.

  (** Translation keeps the meaning and the type of a tuple and all earlier names; it fails exactly on tuples with
      an entity string that is not an entity. *)
  Theorem C89_internalize : forall t e o e', reg_ok (b_syms e) -> internalize_tuple e t = (o, e') ->
    reg_ok (b_syms e') /\ grows (b_syms e) (b_syms e') /\
    (o = None <-> ~ within readable t) /\
    (forall u, o = Some u -> stands (names (b_syms e')) entity_of t u /\ forall y, has_type t y <-> has_type u y).
  Proof.
    intros t e o e' R H. destruct (@internalize_spec t _ _ _ R H) as (R1 & G & _ & N & _ & S1).
    split; auto. split; auto. split; auto. intros u X. split; auto. intros y. eapply stands_typed; eauto.
  Qed.

  (** The values of a tuple, and the facts of the entities that they name. *)
  Fixpoint leaves (t : tuple) : list value :=
    match t with TVal v => [v] | TTup ts => flat_map leaves ts end.
  Definition facts_of (v : value) : list vfact :=
    match v with
    | VEntityString s => match obnd (parse s) (fun x => parse_entity h cv vars x TEntity) with Some (fs, _) => fs | None => [] end
    | _ => []
    end.

  (** A translated tuple has added the facts of all its entities, and no others. *)
  Theorem C89_entities : forall t e u e', internalize_tuple e t = (Some u, e') ->
    b_ents e' = b_ents e ++ flat_map facts_of (leaves t).
  Proof.
    induction t as [v|ts IH] using gtuple_ind'; intros e u e' H.
    - cbn [Boundary.internalize_tuple] in H. destruct (internalize_value e v) as [o1 e1] eqn:E. inversion H; subst.
      cbn [leaves flat_map]. rewrite app_nil_r.
      destruct v; simpl in E; try (inversion E; subst; simpl; rewrite app_nil_r; reflexivity).
      + destruct (register (b_syms e) _) as [r i]. inversion E; subst. simpl. rewrite app_nil_r. reflexivity.
      + unfold facts_of. destruct (obnd (parse s) _) as [[fs id]|]; inversion E; subst; [reflexivity|discriminate].
    - rewrite internalize_tup in H. destruct (internalize_list e ts) as [o1 e1] eqn:E.
      destruct o1 as [us|]; inversion H; subst. clear H. cbn [leaves].
      revert e us e' E. induction IH as [|t ts Ht IH IHl]; intros e us e' E; simpl in E.
      + inversion E; subst. simpl. rewrite app_nil_r. reflexivity.
      + destruct (internalize_tuple e t) as [[u|] e1] eqn:Et; [|discriminate].
        destruct (internalize_list e1 ts) as [o2 e2] eqn:El. destruct o2 as [us2|]; inversion E; subst.
        rewrite (IHl _ _ _ El), (Ht _ _ _ Et). simpl. rewrite flat_map_app, app_assoc. reflexivity.
  Qed.

  (** What the translation of a list of facts has: the facts that can be translated, in order. *)
  Inductive picks (n : Z -> option string) : list tuple -> list tuple -> Prop :=
  | PkNil : picks n [] []
  | PkKeep : forall t u ts us, within readable t -> stands n entity_of t u -> picks n ts us -> picks n (t :: ts) (u :: us)
  | PkDrop : forall t ts us, ~ within readable t -> picks n ts us -> picks n (t :: ts) us.

  Theorem C89_facts : forall ts e us e', reg_ok (b_syms e) -> internalize_all e ts = (us, e') ->
    reg_ok (b_syms e') /\ grows (b_syms e) (b_syms e') /\ picks (names (b_syms e')) ts us /\
    (forall y, (forall t, In t ts -> has_type t y) -> forall u, In u us -> has_type u y).
  Proof.
    assert (G : forall ts e us e', reg_ok (b_syms e) -> internalize_all e ts = (us, e') ->
      reg_ok (b_syms e') /\ grows (b_syms e) (b_syms e') /\ picks (names (b_syms e')) ts us).
    { induction ts as [|t ts IH]; intros e us e' R H; simpl in H.
      - inversion H; subst. split; auto. split; [apply grows_refl|constructor].
      - destruct (internalize_tuple e t) as [o e1] eqn:Et. destruct (internalize_all e1 ts) as [us1 e2] eqn:Ea. inversion H; subst.
        destruct (@internalize_spec t _ _ _ R Et) as (R1 & G1 & _ & N & Y & S1). destruct (IH _ _ _ R1 Ea) as (R2 & G2 & P).
        split; auto. split; [eapply grows_trans; eauto|]. destruct o as [u|].
        + constructor; auto; [apply Y; discriminate|]. eapply stands_mono; [exact G2|]. apply S1; auto.
        + apply PkDrop; auto. apply N; auto. }
    intros ts e us e' R H. destruct (G _ _ _ _ R H) as (R1 & G1 & P). split; auto. split; auto. split; auto.
    intros y. revert P. generalize (names (b_syms e')). clear. intros n P. induction P as [|t u ts us W St P IH|t ts us W P IH]; intros A v I.
    - destruct I.
    - destruct I as [<-|I]; [|apply IH; auto; intros; apply A; right; auto]. apply (@stands_typed _ _ _ y St). apply A. left. auto.
    - apply IH; auto. intros. apply A. right. auto.
  Qed.

  (** ** The way back *)
  (** [shows n t t']: outside, [t'] is how [t] is shown again. *)
  Inductive shows (n : Z -> option string) : tuple -> tuple -> Prop :=
  | ShEntity : forall s v, entity_of s = Some v -> shows n (TVal (VEntityString s)) (TVal v)
  | ShSymbol : forall z s, n z = Some s -> shows n (TVal (VSymbol z)) (TVal (VSymbolString s))
  | ShSame : forall v, (forall s, v <> VEntityString s) -> (forall z, v <> VSymbol z) -> shows n (TVal v) (TVal v)
  | ShTup : forall ts us, Forall2 (shows n) ts us -> shows n (TTup ts) (TTup us).
  Definition named (n : Z -> option string) (v : value) : Prop := forall z, v = VSymbol z -> n z <> None.
  (** Plain tuples are shown as they are. *)
  Definition plain (v : value) : Prop := (forall z, v <> VSymbol z) /\ (forall s, v <> VEntityString s).

  Lemma names_get : forall r z s, names r z = Some s -> get_symbol r (Z.to_nat z) = Some s.
  Proof. unfold names, get_symbol. intros r z s. destruct (z <? 0)%Z; [discriminate|auto]. Qed.

  (** A tuple that was given, and that holds no symbol numbers but those in use, can be shown at any later time. *)
  Theorem C89_shown : forall r t u, stands (names r) entity_of t u -> within (named (names r)) t ->
    exists t', externalize_tuple r u = EOk t' /\ shows (names r) t t' /\ (within plain t -> t' = t).
  Proof.
    intros r. induction t as [v|ts IH] using gtuple_ind'; intros u H W; inversion H; subst.
    - exists (TVal (VSymbolString s)). simpl. rewrite (names_get _ _ H1). simpl. split; auto. split; [|auto].
      apply ShSame; intros; discriminate.
    - pose proof H1 as H1'. apply entity_of_type in H1 as [z ->]. exists (TVal (VEntity z)). simpl. split; auto. split; [apply ShEntity; auto|].
      intros P. inversion P as [? [_ N]|]; subst. exfalso. eapply N; eauto.
    - inversion W as [? Nv|]; subst. assert (K : (exists z, v = VSymbol z) \/ forall z, v <> VSymbol z) by (destruct v; eauto; right; discriminate).
      destruct K as [[z ->]|K].
      + destruct (names r z) as [s|] eqn:E; [|exfalso; eapply Nv; eauto]. exists (TVal (VSymbolString s)). simpl. rewrite (names_get _ _ E). simpl.
        split; auto. split; [apply ShSymbol; auto|]. intros P. inversion P as [? [N _]|]; subst. exfalso. eapply N; eauto.
      + exists (TVal v). split; [destruct v; simpl; auto; exfalso; eapply K; eauto|]. split; [apply ShSame; auto|auto].
    - inversion W as [|? Fw]; subst.
      assert (Q : exists us', emap (externalize_tuple r) us = EOk us' /\ Forall2 (shows (names r)) ts us' /\ (Forall (within plain) ts -> us' = ts)).
      { clear H W. revert us H1 Fw. induction IH as [|t ts Ht IH IHl]; intros us F W; inversion F; subst.
        - exists []. simpl. auto.
        - inversion W; subst. destruct (Ht _ H1 H2) as (t' & E1 & S1 & P1). destruct (IHl _ H3 H4) as (us' & E2 & S2 & P2).
          exists (t' :: us'). cbn [emap]. rewrite E1. cbn [ebind]. 
          match goal with |- ebind ?x _ = _ /\ _ => change x with (emap (externalize_tuple r) l') end. rewrite E2. simpl.
          split; auto. split; [constructor; auto|]. intros X. inversion X; subst. rewrite P1, P2; auto. }
      destruct Q as (us' & E & S1 & P1). exists (TTup us'). split; [|split; [constructor; auto|intros P; inversion P; subst; rewrite P1; auto]].
      change (ebind (emap (externalize_tuple r) us) (fun x => EOk (TTup x)) = EOk (TTup us')). rewrite E. auto.
  Qed.

  (** ** Equality *)
  Lemma names_inj : forall r, reg_ok r -> forall z z' s, names r z = Some s -> names r z' = Some s -> z = z'.
  Proof.
    intros r [_ N] z z' s. unfold names. destruct (z <? 0)%Z eqn:E; [discriminate|]. destruct (z' <? 0)%Z eqn:E'; [discriminate|].
    apply Z.ltb_ge in E. apply Z.ltb_ge in E'. intros A B. apply Z2Nat.inj; auto.
    eapply NoDup_nth_error; eauto; [apply nth_error_Some; congruence|congruence].
  Qed.

  Lemma stands_fun : forall r, reg_ok r -> forall t u u', stands (names r) entity_of t u -> stands (names r) entity_of t u' -> u = u'.
  Proof.
    intros r R. induction t as [v|ts IH] using gtuple_ind'; intros u u' H H'; inversion H; subst; inversion H'; subst;
      try congruence; try (exfalso; match goal with X : forall s, ?c _ <> ?c s |- _ => eapply X; eauto end).
    - f_equal. f_equal. eapply names_inj; eauto.
    - f_equal. clear H H'. revert us us0 H1 H2. induction IH as [|t ts Ht IH IHl]; intros us us0 F F'; inversion F; subst; inversion F'; subst; auto.
      f_equal; auto.
  Qed.

  Lemma stands_inj : forall r, forall t t' u, stands (names r) entity_of t u -> stands (names r) entity_of t' u ->
    within plain t -> within plain t' -> t = t'.
  Proof.
    intros r. induction t as [v|ts IH] using gtuple_ind'; intros t' u H H' P P'.
    - inversion P as [? [P1 P2]|]; subst. inversion H; subst; inversion H'; subst; inversion P' as [? [P3 P4]|]; subst; try congruence;
        try (exfalso; match goal with X : forall s, ?c _ <> ?c s |- _ => eapply X; eauto; fail end).
    - inversion H as [| | |? us F]; subst. inversion H' as [| | |ts0 ? F']; subst. f_equal. inversion P as [|? W]; subst. inversion P' as [|? W']; subst.
      clear H H' P P'. revert ts0 us F F' W W'. induction IH as [|t ts Ht IH IHl]; intros ts0 us F F' W W'.
      + inversion F; subst. inversion F'; subst. auto.
      + inversion F; subst. inversion F'; subst. inversion W; subst. inversion W'; subst. f_equal; eauto.
  Qed.

  (** Inside, two facts that were given as text and plain values are equal exactly if they were given as equal, whatever was given in between. *)
  Theorem C89_equal : forall e t u e1 ts us e2 t' u' e3, reg_ok (b_syms e) ->
    internalize_tuple e t = (Some u, e1) -> internalize_all e1 ts = (us, e2) -> internalize_tuple e2 t' = (Some u', e3) ->
    within plain t -> within plain t' -> (u = u' <-> t = t').
  Proof.
    intros e t u e1 ts us e2 t' u' e3 R H1 H2 H3 P P'.
    destruct (@internalize_spec t _ _ _ R H1) as (R1 & G1 & _ & _ & _ & S1). destruct (@C89_facts _ _ _ _ R1 H2) as (R2 & G2 & _).
    destruct (@internalize_spec t' _ _ _ R2 H3) as (R3 & G3 & _ & _ & _ & S3).
    assert (St : stands (names (b_syms e3)) entity_of t u) by (eapply stands_mono; [exact (grows_trans G2 G3)|apply S1; auto]).
    specialize (S3 _ eq_refl). split.
    - intros <-. eapply stands_inj; eauto.
    - intros <-. eapply stands_fun; eauto.
  Qed.
End TranslateProps.

(** ** Examples *)
Definition x_conv : conv := mkConv (fun _ z => z) (fun _ z => z) (fun _ _ => None) (fun _ => EmptyString) (fun _ => EmptyString) (fun _ => None) (fun _ => 0%Z).
Definition x_hash (f : string) (l : list feed) : Z := Z.of_nat (List.length l).
Definition x_parse (s : string) : option ent :=
  if String.eqb s "Leaf(4)" then Some (NObj (0, 0, 0)%nat "Leaf" [NConst ((0, 0, 0)%nat, CInt 4)]) else None.
Definition x_vars (s : string) : option variant := if String.eqb s "Leaf" then Some (mkVariant "adt#Leaf" [TEntity; TI32]) else None.
Definition x_env : benv := mkBenv reg_new [].
Definition x_types (r : nat) : option ttype :=
  match r with
  | 0 => Some (from_types [TI32; TSymbol])
  | 1 => Some (from_types [TEntity; TEntity])
  | _ => None
  end.
Definition x_ctx : bctx unit := mkBctx [0; 1] (db_with_types unit false []).
Definition x_db : bdb unit := db_with_types unit true [(0, from_types [TI32; TSymbol])].

Definition x_good : tuple := TTup [TVal (I32 3); TVal (VSymbolString "red")].
Definition x_good2 : tuple := TTup [TVal (I32 4); TVal (VSymbolString "blue")].
Definition x_bad : tuple := TTup [TVal (I32 3); TVal (VString "red")].
Example C89_add_ex :
  fst (ctx_add_facts x_types true x_ctx 0 [(tt, x_good); (tt, x_good2)]) = None /\
  ctx_add_facts x_types true x_ctx 0 [(tt, x_good); (tt, x_bad)] = (Some (TypeMismatch x_bad), x_ctx) /\
  ctx_add_facts x_types true x_ctx 5 [(tt, x_good)] = (Some UnknownRelation, x_ctx) /\
  bc_computed (snd (ctx_add_facts x_types true x_ctx 0 [(tt, x_good)])) = [1].
Proof. vm_compute. auto. Qed.
Example C89_database_ex : fst (db_add_facts x_db 0 [(tt, x_good)]) = None /\ db_add_facts x_db 0 [(tt, x_bad)] = (Some (TypeMismatch x_bad), x_db).
Proof. vm_compute. auto. Qed.

Definition x_tree : tuple := TTup [TVal (VEntityString "Leaf(4)"); TVal (VSymbolString "red")].
Example C89_internalize_ex :
  internalize_tuple x_hash x_conv x_parse x_vars x_env x_tree =
    (Some (TTup [TVal (VEntity 1); TVal (VSymbol 0)]),
     mkBenv (mkReg [("red", 0)%string] ["red"%string]) [("adt#Leaf"%string, VEntity 1, [I32 4])]) /\ reg_ok (b_syms x_env).
Proof. split; [vm_compute; reflexivity|apply reg_new_ok]. Qed.
Example C89_facts_ex :
  fst (internalize_all x_hash x_conv x_parse x_vars x_env [x_good; TVal (VEntityString "?"); x_good2; x_good]) =
  [TTup [TVal (I32 3); TVal (VSymbol 0)]; TTup [TVal (I32 4); TVal (VSymbol 1)]; TTup [TVal (I32 3); TVal (VSymbol 0)]].
Proof. vm_compute. reflexivity. Qed.
Example C89_shown_ex : within (named (names reg_new)) x_good /\ within plain x_good /\
  externalize_tuple (mkReg [("blue", 1); ("red", 0)]%string ["red"; "blue"]%string) (TTup [TVal (I32 3); TVal (VSymbol 0)]) = EOk x_good.
Proof.
  split; [|split; [|reflexivity]]; repeat constructor; try (intros z H; discriminate).
Qed.

Example C89_entities_ex :
  flat_map (facts_of x_hash x_conv x_parse x_vars) (leaves x_tree) = [("adt#Leaf"%string, VEntity 1, [I32 4])] /\
  b_ents (snd (internalize_tuple x_hash x_conv x_parse x_vars x_env x_tree)) = [("adt#Leaf"%string, VEntity 1, [I32 4])].
Proof. vm_compute. auto. Qed.
Example C89_equal_ex : exists e1 e2 e3 u u' us,
  internalize_tuple x_hash x_conv x_parse x_vars x_env x_good = (Some u, e1) /\
  internalize_all x_hash x_conv x_parse x_vars e1 [x_tree; x_good2] = (us, e2) /\
  internalize_tuple x_hash x_conv x_parse x_vars e2 x_good2 = (Some u', e3) /\ within plain x_good /\ within plain x_good2 /\ u <> u'.
Proof.
  do 6 eexists. split; [vm_compute; reflexivity|]. split; [vm_compute; reflexivity|]. split; [vm_compute; reflexivity|].
  split; [repeat constructor; intros z H; discriminate|]. split; [repeat constructor; intros z H; discriminate|]. discriminate.
Qed.

(** ** Refutations *)
(** Facts of the right types are accepted, but lost without a word if an entity string is not an entity; the
    entities of their other arguments are kept. *)
Theorem C89_dropped_refuted : exists t, has_type t (from_types [TEntity; TEntity]) /\ fst (ctx_add_facts x_types true x_ctx 1 [(tt, t)]) = None /\
  exists e, internalize_all x_hash x_conv x_parse x_vars x_env [t] = ([], e) /\ b_ents e <> [].
Proof.
  exists (TTup [TVal (VEntityString "Leaf(4)"); TVal (VEntityString "Leaf(x)")]). split; [apply matches_iff; reflexivity|].
  split; [reflexivity|]. eexists. split; [vm_compute; reflexivity|discriminate].
Qed.

(** A symbol given by a number that is not in use is accepted and cannot be shown. *)
Theorem C89_symbol_refuted : exists t e u, has_type t (from_types [TI32; TSymbol]) /\ fst (ctx_add_facts x_types true x_ctx 0 [(tt, t)]) = None /\
  internalize_tuple x_hash x_conv x_parse x_vars x_env t = (Some u, e) /\ externalize_tuple (b_syms e) u = EPanic.
Proof.
  exists (TTup [TVal (I32 3); TVal (VSymbol 9)]). do 2 eexists. split; [apply matches_iff; reflexivity|]. repeat split.
Qed.

(** A context made with the default options checks types but has none: it accepts no facts at all, even after
    running a program with the relation (programs given later do not add types). *)
Theorem C89_untyped_refuted : exists d : bdb unit, d = db_with_types unit true [] /\
  forall r fs, db_add_facts d r fs = (Some UnknownRelation, d).
Proof. exists (db_with_types unit true []). split; auto. Qed.

(** Facts that are rejected by the database itself still remove the results of their relation. *)
Theorem C89_error_refuted : exists (c : bctx unit) r fs t c', exec_add_facts c r fs = (Some (TypeMismatch t), c') /\
  bd_input (bc_db c') r = bd_input (bc_db c) r /\ In r (bc_computed c) /\ ~ In r (bc_computed c').
Proof.
  exists (mkBctx [0; 1] x_db), 0, [(tt, x_bad)]. do 2 eexists. split; [vm_compute; reflexivity|]. split; [reflexivity|].
  split; [left; auto|]. intros [H|[]]; discriminate.
Qed.

(** The order of symbols is the order in which they were first used, not that of their text. *)
Theorem C89_order_refuted : exists a b,
  string_cmp a b = Lt /\
  (forall u v, fst (internalize_all x_hash x_conv x_parse x_vars x_env [TVal (VSymbolString b); TVal (VSymbolString a)]) = [v; u] -> tcmp u v = Gt) /\
  (forall u v, fst (internalize_all x_hash x_conv x_parse x_vars x_env [TVal (VSymbolString a); TVal (VSymbolString b)]) = [u; v] -> tcmp u v = Lt) /\
  exists u v, fst (internalize_all x_hash x_conv x_parse x_vars x_env [TVal (VSymbolString b); TVal (VSymbolString a)]) = [v; u].
Proof.
  exists "a"%string, "b"%string. split; [reflexivity|]. split; [|split].
  - intros u v H. vm_compute in H. inversion H; subst. reflexivity.
  - intros u v H. vm_compute in H. inversion H; subst. reflexivity.
  - do 2 eexists. vm_compute. reflexivity.
Qed.

Print Assumptions C89_add.
Print Assumptions C89_database.
Print Assumptions C89_internalize.
Print Assumptions C89_entities.
Print Assumptions C89_facts.
Print Assumptions C89_shown.
Print Assumptions C89_equal.
Print Assumptions C89_dropped_refuted.
Print Assumptions C89_symbol_refuted.
Print Assumptions C89_untyped_refuted.
Print Assumptions C89_error_refuted.
Print Assumptions C89_order_refuted.
