(** C70: constants and entities stand for the terms they are written as.  C71: enumerations
    and the uses of constants.  C73: the same term is not always the same entity. *)
From Coq Require Import List ZArith Bool String Lia Permutation Sorted.
From Verif Require Import Value Back Eval TypeSet Infer Front Cast Entity.
Import ListNotations.
Local Open Scope string_scope.
Local Open Scope list_scope.

(** ** Specification *)
(** Terms of algebraic data types; they have no places in the source. *)
Inductive term (A : Type) := Leaf (a : A) | App (f : string) (l : list (term A)).
Arguments Leaf {A}. Arguments App {A}.
Inductive subterm {A} (t : term A) : term A -> Prop :=
| sub_here : subterm t t
| sub_arg f l u : In u l -> subterm t u -> subterm t (App f l).

(** The term that is read off the facts of the entities: [F] has a functor, an id and
    arguments, [id] says which of the values are ids. *)
Inductive reads {A} (id : A -> Prop) (F : list (string * A * list A)) : A -> term A -> Prop :=
| rd_leaf a : ~ id a -> reads id F a (Leaf a)
| rd_app f i l ts : In (f, i, l) F -> Forall2 (reads id F) l ts -> reads id F i (App f ts).

(** The term that an entity is written as, with the constants [D], in whatever order these
    are declared. *)
Inductive den (D : list (string * ent)) : ent -> term content -> Prop :=
| den_const l c : den D (NConst (l, c)) (Leaf c)
| den_var v e t : In (v, e) D -> den D e t -> den D (NVar v) t
| den_obj l f es ts : Forall2 (den D) es ts -> den D (NObj l f es) (App f ts).

(** The numbers of the members of an enumeration: the one that is given, or else the next. *)
Definition given (a : option content) (z : Z) : Prop := a = Some (CInt z) /\ (0 <= z)%Z.
Inductive numbered : option Z -> list (string * option content) -> list (string * Z) -> Prop :=
| num_nil p : numbered p [] []
| num_given p v a z ms l : given a z -> (forall q, p = Some q -> (q < z)%Z) -> numbered (Some z) ms l -> numbered p ((v, a) :: ms) ((v, z) :: l)
| num_next p v a z ms l : (forall y, ~ given a y) -> z = match p with Some q => (q + 1)%Z | None => 0%Z end ->
    numbered (Some z) ms l -> numbered p ((v, a) :: ms) ((v, z) :: l).
(** What a program declares. *)
Inductive declares : item -> list (string * ent) -> Prop :=
| dc_const v ty e : declares (IConst v ty e) [(v, e)]
| dc_enum ms l : numbered None ms l -> declares (IEnum ms) (map (fun vz => (fst vz, NConst (no_loc, CInt (snd vz)))) l)
| dc_uses l : declares (IUses l) [].

(** Ids cannot be written in the source. *)
Definition is_id (c : content) : Prop := exists z, c = CEntity z.
Fixpoint written (e : ent) : bool :=
  match e with
  | NConst (_, CEntity _) => false
  | NObj _ _ l => forallb written l
  | _ => true
  end.
Definition written_item (i : item) : bool := match i with IConst _ _ e => written e | _ => true end.
(** No two of the facts have the same id by accident. *)
Definition no_clash (h : string -> list feed -> Z) (F : list efact) : Prop :=
  forall a b, In a F -> In b F -> h (ef_functor a) (map FeedLit (ef_args a)) = h (ef_functor b) (map FeedLit (ef_args b)) ->
    ef_functor a = ef_functor b /\ ef_args a = ef_args b.
(** The facts without the places of the constants. *)
Definition plain (F : list efact) : list (string * content * list content) :=
  map (fun f => (ef_functor f, snd (ef_id f), map snd (ef_args f))) F.

(** ** Reading *)
Section ReadsInd.
  Context {A : Type} (id : A -> Prop) (F : list (string * A * list A)) (P : A -> term A -> Prop).
  Hypothesis Pl : forall a, ~ id a -> P a (Leaf a).
  Hypothesis Pa : forall f i l ts, In (f, i, l) F -> Forall2 (reads id F) l ts -> Forall2 P l ts -> P i (App f ts).
  Fixpoint reads_ind' (a : A) (t : term A) (r : reads id F a t) {struct r} : P a t :=
    match r in reads _ _ a t return P a t with
    | rd_leaf _ _ a n => Pl a n
    | rd_app _ _ f i l ts i0 fa =>
        Pa f i l ts i0 fa ((fix go l ts (q : Forall2 (reads id F) l ts) : Forall2 P l ts :=
          match q in Forall2 _ l ts return Forall2 P l ts with
          | Forall2_nil _ => Forall2_nil _
          | Forall2_cons x y r0 q0 => Forall2_cons x y (reads_ind' x y r0) (go _ _ q0)
          end) l ts fa)
    end.
End ReadsInd.
Section DenInd.
  Context (D : list (string * ent)) (P : ent -> term content -> Prop).
  Hypothesis Pc : forall l c, P (NConst (l, c)) (Leaf c).
  Hypothesis Pv : forall v e t, In (v, e) D -> den D e t -> P e t -> P (NVar v) t.
  Hypothesis Po : forall l f es ts, Forall2 (den D) es ts -> Forall2 P es ts -> P (NObj l f es) (App f ts).
  Fixpoint den_ind' (e : ent) (t : term content) (r : den D e t) {struct r} : P e t :=
    match r in den _ e t return P e t with
    | den_const _ l c => Pc l c
    | den_var _ v e t i r => Pv v e t i r (den_ind' e t r)
    | den_obj _ l f es ts fa =>
        Po l f es ts fa ((fix go es ts (q : Forall2 (den D) es ts) : Forall2 P es ts :=
          match q in Forall2 _ es ts return Forall2 P es ts with
          | Forall2_nil _ => Forall2_nil _
          | Forall2_cons x y r0 q0 => Forall2_cons x y (den_ind' x y r0) (go _ _ q0)
          end) es ts fa)
    end.
End DenInd.
Section EntInd.
  Variable P : ent -> Prop.
  Hypothesis Pc : forall c, P (NConst c).
  Hypothesis Pv : forall v, P (NVar v).
  Hypothesis Pe : P NExpr.
  Hypothesis Po : forall l f es, Forall P es -> P (NObj l f es).
  Fixpoint ent_ind' (e : ent) : P e :=
    match e with
    | NConst c => Pc c | NVar v => Pv v | NExpr => Pe
    | NObj l f es => Po l f es ((fix go es : Forall P es := match es with [] => Forall_nil _ | e :: es => Forall_cons e (ent_ind' e) (go es) end) es)
    end.
End EntInd.

Definition functional {A} (F : list (string * A * list A)) : Prop :=
  forall f g i l m, In (f, i, l) F -> In (g, i, m) F -> f = g /\ l = m.
Lemma reads_fun : forall A (id : A -> Prop) F, functional F -> (forall f i l, In (f, i, l) F -> id i) ->
  forall a t, reads id F a t -> forall t', reads id F a t' -> t' = t.
Proof.
  intros A id F FU ID. apply (reads_ind' id F (fun a t => forall t', reads id F a t' -> t' = t)); [intros a n t' R'|intros f i l ts I R IH t' R'].
  - inversion R' as [? n'|f i l ts I R]; subst; [reflexivity|]. exfalso. apply n. eapply ID; eauto.
  - inversion R' as [? n'|f' i' l' ts' I' R2]; subst. { exfalso. apply n'. eapply ID; eauto. }
    destruct (FU _ _ _ _ _ I I') as [-> ->]. f_equal. clear I I' R R'. revert ts' R2.
    induction IH as [|x y l ts H IH IH2]; intros ts' R2; inversion R2; subst; [reflexivity|]. f_equal; auto.
Qed.
Lemma reads_mono : forall A (id : A -> Prop) F G, (forall x, In x F -> In x G) -> forall a t, reads id F a t -> reads id G a t.
Proof.
  intros A id F G I. apply (reads_ind' id F (reads id G)); [intros a n; apply rd_leaf; auto|intros f i l ts J R IH; eapply rd_app; eauto].
Qed.
Lemma den_mono : forall D D' e t, (forall x, In x D -> In x D') -> den D e t -> den D' e t.
Proof.
  intros D D' e t I. revert e t. apply (den_ind' D (den D')); [constructor|econstructor; eauto|constructor; auto].
Qed.
Lemma F2_mono : forall A B (P Q : A -> B -> Prop) l m, (forall a b, P a b -> Q a b) -> Forall2 P l m -> Forall2 Q l m.
Proof. induction 2; constructor; auto. Qed.

Lemma plain_app : forall F G, plain (F ++ G) = plain F ++ plain G.
Proof. intros. apply map_app. Qed.

Section Const.
  Variable h : string -> list feed -> Z.
  (** Facts as they are made. *)
  Definition made (F : list efact) : Prop :=
    forall f, In f F -> snd (ef_id f) = CEntity (h (ef_functor f) (map FeedLit (ef_args f))).

  Lemma made_functional : forall F, made F -> no_clash h F -> functional (plain F).
  Proof.
    intros F M N f g i l m I J. apply in_map_iff in I. destruct I as (a & Ea & Ia). apply in_map_iff in J. destruct J as (b & Eb & Ib).
    injection Ea as <- <- <-. injection Eb as <- E <-. rewrite (M _ Ia), (M _ Ib) in E. injection E as E.
    symmetry in E. destruct (N _ _ Ia Ib E) as [-> ->]. auto.
  Qed.
  Lemma made_id : forall F, made F -> forall f i l, In (f, i, l) (plain F) -> is_id i.
  Proof.
    intros F M f i l I. apply in_map_iff in I. destruct I as (a & Ea & Ia). injection Ea as <- <- <-. rewrite (M _ Ia). eexists. reflexivity.
  Qed.

  (** What [to_facts] makes. *)
  Lemma to_facts_ok : forall (vars : string -> option lconst) D F,
    (forall v c, vars v = Some c -> exists t, den D (NVar v) t /\ reads is_id (plain F) (snd c) t) ->
    forall e fs c, to_facts h vars e = Some (fs, c) -> written e = true ->
    made fs /\ exists t, den D e t /\ reads is_id (plain (F ++ fs)) (snd c) t /\
      forall f, In f fs -> exists u, subterm u t /\ reads is_id (plain (F ++ fs)) (snd (ef_id f)) u.
  Proof.
    intros vars D F V. induction e as [[l k]|v| |l f es IH] using ent_ind'; intros fs c E W.
    - injection E as <- <-. split; [intros f []|]. exists (Leaf k). split; [constructor|]. split; [|intros f []].
      apply rd_leaf. intros [z ->]. discriminate W.
    - cbn [to_facts] in E. destruct (vars v) as [c'|] eqn:Ev; [|discriminate E]. injection E as <- <-. split; [intros f []|].
      destruct (V _ _ Ev) as (t & Dt & Rt). exists t. split; [exact Dt|]. split; [|intros f []]. rewrite app_nil_r. exact Rt.
    - discriminate E.
    - cbn [to_facts] in E. destruct (oall (map (to_facts h vars) es)) as [rs|] eqn:Eo; [|discriminate E]. cbn [obnd] in E. injection E as <- <-.
      cbn [written] in W.
      assert (K : forall G, (forall x, In x F -> In x G) -> (forall x, In x (List.concat (map fst rs)) -> In x G) ->
        made (List.concat (map fst rs)) /\ exists ts, Forall2 (den D) es ts /\ Forall2 (reads is_id (plain G)) (map snd (map snd rs)) ts /\
          forall x, In x (List.concat (map fst rs)) -> exists u t, In t ts /\ subterm u t /\ reads is_id (plain G) (snd (ef_id x)) u).
      { revert rs Eo W. induction IH as [|e es He IH IH2]; intros rs Eo W G IF IG.
        - injection Eo as <-. split; [intros x []|]. exists []. split; [constructor|]. split; [constructor|]. intros x [].
        - cbn [map oall] in Eo. destruct (to_facts h vars e) as [[f1 c1]|] eqn:E1; [|discriminate Eo]. cbn [obnd] in Eo.
          destruct (oall (map (to_facts h vars) es)) as [rs'|] eqn:E2; [|discriminate Eo]. injection Eo as <-.
          cbn [forallb] in W. apply andb_prop in W. destruct W as [W1 W2].
          destruct (He _ _ eq_refl W1) as (M1 & t & Dt & Rt & S1).
          cbn [map fst List.concat] in IG.
          destruct (IH2 _ eq_refl W2 G IF) as (M2 & ts & Dts & Rts & S2). { intros x Hx. apply IG. apply in_or_app. auto. }
          assert (MON : forall a u, reads is_id (plain (F ++ f1)) a u -> reads is_id (plain G) a u).
          { apply reads_mono. intros x Hx. apply in_map_iff in Hx. destruct Hx as (y & <- & Hy). apply in_map_iff. exists y. split; [reflexivity|]. apply in_app_or in Hy.
            destruct Hy as [Hy|Hy]; [auto|]. apply IG. apply in_or_app. auto. }
          split. { intros x Hx. cbn [map fst List.concat] in Hx. apply in_app_or in Hx. destruct Hx as [Hx|Hx]; auto. }
          exists (t :: ts). split; [constructor; auto|]. split; [cbn; constructor; auto|].
          intros x Hx. cbn [map fst List.concat] in Hx. apply in_app_or in Hx. destruct Hx as [Hx|Hx].
          + destruct (S1 _ Hx) as (u & Su & Ru). exists u, t. split; [left; reflexivity|]. auto.
          + destruct (S2 _ Hx) as (u & t' & It & Su & Ru). exists u, t'. split; [right; exact It|]. auto. }
      set (new := mkEfact f (l, CEntity (h f (map FeedLit (map snd rs)))) (map snd rs)).
      destruct (K (F ++ List.concat (map fst rs) ++ [new])) as (M & ts & Dts & Rts & Sx).
      { intros x Hx. apply in_or_app. auto. } { intros x Hx. apply in_or_app. right. apply in_or_app. auto. }
      split. { intros x Hx. apply in_app_or in Hx. destruct Hx as [Hx|[<-|[]]]; [auto|reflexivity]. }
      exists (App f ts). split; [constructor; exact Dts|].
      assert (RN : reads is_id (plain (F ++ List.concat (map fst rs) ++ [new])) (CEntity (h f (map FeedLit (map snd rs)))) (App f ts)).
      { apply rd_app with (l := map snd (map snd rs)); [|exact Rts]. rewrite !plain_app. apply in_or_app. right. apply in_or_app. right. left. reflexivity. }
      split; [exact RN|]. intros x Hx. apply in_app_or in Hx. destruct Hx as [Hx|[<-|[]]].
      + destruct (Sx _ Hx) as (u & t & It & Su & Ru). exists u. split; [eapply sub_arg; eauto|exact Ru].
      + exists (App f ts). split; [constructor|exact RN].
  Qed.
  Lemma to_facts_total : forall vars e, all_constant vars e = true -> exists r, to_facts h vars e = Some r.
  Proof.
    intros vars. induction e as [c|v| |l f es IH] using ent_ind'; intros A.
    - eexists; reflexivity.
    - cbn in *. destruct (vars v); [eexists; reflexivity|discriminate A].
    - discriminate A.
    - cbn [to_facts all_constant] in *.
      assert (K : exists rs, oall (map (to_facts h vars) es) = Some rs).
      { induction IH as [|e es He IH IH2]; [eexists; reflexivity|]. cbn [forallb] in A. apply andb_prop in A. destruct A as [A1 A2].
        destruct (He A1) as (r & E1). destruct (IH2 A2) as (rs & E2). cbn [map oall]. rewrite E1, E2. eexists; reflexivity. }
      destruct K as (rs & ->). eexists; reflexivity.
  Qed.

  (** ** The analysis *)
  Lemma find_var_In : forall v l c, find_var v l = Some c -> In v (map fst l).
  Proof.
    intros v l. induction l as [|[w c'] l IH]; intros c E; [discriminate E|]. cbn in E. destruct (String.eqb_spec v w) as [->|N]; [left; reflexivity|right; eauto].
  Qed.
  Lemma find_var_None : forall v l, find_var v l = None -> ~ In v (map fst l).
  Proof.
    intros v l. induction l as [|[w c'] l IH]; intros E; [intros []|]. cbn in E. destruct (String.eqb_spec v w) as [->|N]; [discriminate E|].
    intros [Q|H]; [cbn in Q; congruence|]. apply IH; auto.
  Qed.
  Lemma find_var_here : forall v c l, find_var v ((v, c) :: l) = Some c.
  Proof. intros. cbn. rewrite String.eqb_refl. reflexivity. Qed.
  Lemma find_var_other : forall v w c l, v <> w -> find_var v ((w, c) :: l) = find_var v l.
  Proof. intros. cbn. destruct (String.eqb_spec v w); [congruence|reflexivity]. Qed.

  Record inv (st : cstate) (D : list (string * ent)) : Prop := mkInv {
    in_made : made (cs_facts st);
    in_nodup : NoDup (map fst D);
    in_dom : forall v, In v (map fst D) <-> In v (map fst (cs_vars st));
    in_den : forall v e, In (v, e) D -> exists c t, constant_of st v = Some c /\ den D e t /\ reads is_id (plain (cs_facts st)) (snd c) t;
    in_facts : forall f, In f (cs_facts st) -> exists v e t u, In (v, e) D /\ den D e t /\ subterm u t /\ reads is_id (plain (cs_facts st)) (snd (ef_id f)) u }.

  Lemma inv_vars : forall st D, inv st D -> forall v c, constant_of st v = Some c -> exists t, den D (NVar v) t /\ reads is_id (plain (cs_facts st)) (snd c) t.
  Proof.
    intros st D H v c E. unfold constant_of in E. destruct (find_var v (cs_vars st)) as [c'|] eqn:Ef; [|discriminate E].
    assert (I := find_var_In _ _ _ Ef). apply (in_dom _ _ H) in I. apply in_map_iff in I. destruct I as ([w e] & Ew & I). cbn in Ew. subst w.
    destruct (in_den _ _ H _ _ I) as (c2 & t & E2 & Dt & Rt). unfold constant_of in E2. rewrite Ef in E2. rewrite E2 in E. injection E as <-.
    exists t. split; [econstructor; eauto|exact Rt].
  Qed.

  (** Adding one declaration. *)
  Lemma inv_add : forall st D v ty e fs c, inv st D -> find_var v (cs_vars st) = None ->
    to_facts h (constant_of st) e = Some (fs, c) -> written e = true ->
    inv (mkCs ((v, (ty, c)) :: cs_vars st) (cs_uses st) (cs_facts st ++ fs) (cs_errors st)) ((v, e) :: D).
  Proof.
    intros st D v ty e fs c H N E W. assert (Nv := find_var_None _ _ N).
    destruct (to_facts_ok (constant_of st) D (cs_facts st) (inv_vars st D H) e fs c E W) as (M & t & Dt & Rt & Sx).
    assert (DM : forall e t, den D e t -> den ((v, e) :: D) e t) by (intros; eapply den_mono; [|eauto]; intros; right; auto).
    assert (FM : forall a u, reads is_id (plain (cs_facts st)) a u -> reads is_id (plain (cs_facts st ++ fs)) a u).
    { apply reads_mono. intros x Hx. rewrite plain_app. apply in_or_app. auto. }
    assert (DM' : forall e' t, den D e' t -> den ((v, e) :: D) e' t) by (intros; eapply den_mono; [|eauto]; intros; right; auto).
    constructor; cbn [cs_facts cs_vars].
    - intros f Hf. apply in_app_or in Hf. destruct Hf as [Hf|Hf]; [apply (in_made _ _ H); auto|auto].
    - cbn. constructor; [|apply (in_nodup _ _ H)]. intros Hv. apply (in_dom _ _ H) in Hv. auto.
    - intros w. cbn. rewrite (in_dom _ _ H). tauto.
    - intros w e' [E'|I].
      + injection E' as <- <-. exists c, t. unfold constant_of. cbn [cs_vars]. rewrite find_var_here. split; [reflexivity|]. auto.
      + destruct (in_den _ _ H _ _ I) as (c' & t' & Ec & Dt' & Rt'). exists c', t'. unfold constant_of in *. cbn [cs_vars].
        rewrite find_var_other; [|intros ->; apply Nv; apply (in_dom _ _ H); apply in_map with (f := fst) in I; exact I]. auto.
    - intros f Hf. apply in_app_or in Hf. destruct Hf as [Hf|Hf].
      + destruct (in_facts _ _ H _ Hf) as (w & e' & t' & u & I & Dt' & Su & Ru). exists w, e', t', u. split; [right; exact I|]. auto.
      + destruct (Sx _ Hf) as (u & Su & Ru). exists v, e, t, u. split; [left; reflexivity|]. auto.
  Qed.
  Lemma inv_use : forall st D u, inv st D -> inv (visit_use st u) D.
  Proof. intros st D u H. unfold visit_use. destruct (find_var (snd u) (cs_vars st)); [|exact H]. destruct H as [M N O P Q]. constructor; auto. Qed.

  (** Errors stay. *)
  Lemma enum_errors : forall ms st p st', enum_members st p ms = Some st' -> cs_errors st' = [] -> cs_errors st = [].
  Proof.
    induction ms as [|[v a] ms IH]; intros st p st' E N; cbn in E. { injection E as <-. exact N. }
    destruct (extract_value a p) as [z| |]; [|injection E as <-; discriminate N|discriminate E].
    destruct (find_var v (cs_vars st)); [injection E as <-; discriminate N|]. apply IH in E; auto.
  Qed.
  Lemma uses_errors : forall l st, cs_errors (fold_left visit_use l st) = cs_errors st.
  Proof. induction l as [|u l IH]; intros st; [reflexivity|]. cbn [fold_left]. rewrite IH. unfold visit_use. destruct (find_var _ _); reflexivity. Qed.
  Lemma item_errors : forall i st st', visit_item h st i = Some st' -> cs_errors st' = [] -> cs_errors st = [].
  Proof.
    intros [v ty e|ms|l] st st' E N; cbn [visit_item] in E.
    - unfold visit_const in E. destruct (find_var v (cs_vars st)); [injection E as <-; discriminate N|].
      destruct (all_constant (constant_of st) e); [|injection E as <-; discriminate N].
      destruct (to_facts h (constant_of st) e) as [r|]; [|discriminate E]. injection E as <-. exact N.
    - eapply enum_errors; eauto.
    - injection E as <-. rewrite uses_errors in N. exact N.
  Qed.
  Lemma items_errors : forall l st st', visit_items h st l = Some st' -> cs_errors st' = [] -> cs_errors st = [].
  Proof.
    induction l as [|i l IH]; intros st st' E N; cbn [visit_items] in E. { injection E as <-. exact N. }
    destruct (visit_item h st i) as [st1|] eqn:E1; [|discriminate E]. cbn [obnd] in E. eapply item_errors; eauto.
  Qed.

  Lemma extract_given : forall a p z, extract_value a p = EnumId z ->
    (given a z /\ forall q, p = Some q -> (q < z)%Z) \/
    ((forall y, ~ given a y) /\ z = match p with Some q => (q + 1)%Z | None => 0%Z end).
  Proof.
    intros a p z E.
    assert (K : next_id p = EnumId z -> z = match p with Some q => (q + 1)%Z | None => 0%Z end).
    { unfold next_id. destruct p as [q|]; [|congruence]. destruct (q + 1 <=? imax KI64)%Z; congruence. }
    unfold extract_value in E. destruct a as [[]|]; try (right; split; [intros y [G _]; discriminate G|auto]; fail).
    destruct (Z.leb_spec 0 z0) as [L|L].
    - left. destruct p as [q|]; [destruct (Z.ltb_spec q z0)|]; try discriminate E; injection E as <-; (split; [split; auto|]); intros q' Hq; congruence.
    - right. split; [|auto]. intros y [G1 G2]. injection G1 as <-. lia.
  Qed.
  Lemma inv_enum : forall ms st p D st', inv st D -> enum_members st p ms = Some st' -> cs_errors st' = [] ->
    exists l, numbered p ms l /\ inv st' (rev (map (fun vz => (fst vz, NConst (no_loc, CInt (snd vz)))) l) ++ D).
  Proof.
    induction ms as [|[v a] ms IH]; intros st p D st' H E N; cbn [enum_members] in E.
    { injection E as <-. exists []. split; [constructor|exact H]. }
    destruct (extract_value a p) as [z| |] eqn:Ex; [|injection E as <-; discriminate N|discriminate E].
    destruct (find_var v (cs_vars st)) eqn:Ef; [injection E as <-; discriminate N|].
    assert (H1 := inv_add st D v (Some TUSize) (NConst (no_loc, CInt z)) [] (no_loc, CInt z) H Ef eq_refl eq_refl).
    rewrite app_nil_r in H1. destruct (IH _ _ _ _ H1 E N) as (l & Nu & H2). exists ((v, z) :: l). split.
    - destruct (extract_given _ _ _ Ex) as [[G L]|[G L]]; [apply num_given; auto|apply num_next; auto].
    - cbn [map rev fst snd]. rewrite <- app_assoc. exact H2.
  Qed.

  Lemma inv_perm : forall st D D', inv st D -> NoDup (map fst D') -> (forall x, In x D <-> In x D') -> inv st D'.
  Proof.
    intros st D D' [M N O P Q] N' S. assert (DM : forall e t, den D e t -> den D' e t) by (intros; eapply den_mono; [|eauto]; intros; apply S; auto).
    constructor; auto.
    - intros v. rewrite <- O, !in_map_iff. split; intros (x & E & I); exists x; (split; [exact E|]); apply S; exact I.
    - intros v e I. apply S in I. destruct (P _ _ I) as (c & t & X & Y & Z). eauto 6.
    - intros f Hf. destruct (Q _ Hf) as (v & e & t & u & X & Y & Z). exists v, e, t, u. split; [apply S; exact X|]. destruct Z. auto.
  Qed.
  Lemma NoDup_app_rev : forall A (l m : list A), NoDup (rev l ++ m) -> NoDup (m ++ l).
  Proof.
    intros A l m H. apply NoDup_rev in H. rewrite rev_app_distr, rev_involutive in H.
    revert H. apply Permutation.Permutation_NoDup. apply Permutation.Permutation_app_tail. apply Permutation.Permutation_sym. apply Permutation.Permutation_rev.
  Qed.
  Lemma inv_items : forall l st D st', inv st D -> visit_items h st l = Some st' -> cs_errors st' = [] -> forallb written_item l = true ->
    exists ds, Forall2 declares l ds /\ inv st' (D ++ List.concat ds).
  Proof.
    induction l as [|i l IH]; intros st D st' H E N W; cbn [visit_items] in E.
    { injection E as <-. exists []. split; [constructor|]. cbn. rewrite app_nil_r. exact H. }
    destruct (visit_item h st i) as [st1|] eqn:E1; [|discriminate E]. cbn [obnd] in E.
    cbn [forallb] in W. apply andb_prop in W. destruct W as [W1 W2].
    assert (N1 := items_errors _ _ _ E N).
    assert (K : exists d, declares i d /\ inv st1 (D ++ d)).
    { destruct i as [v ty e|ms|us]; cbn [visit_item] in E1.
      - exists [(v, e)]. split; [constructor|]. unfold visit_const in E1.
        destruct (find_var v (cs_vars st)) eqn:Ef; [injection E1 as <-; discriminate N1|].
        destruct (all_constant (constant_of st) e); [|injection E1 as <-; discriminate N1].
        destruct (to_facts h (constant_of st) e) as [[fs c]|] eqn:Et; [|discriminate E1]. cbn [obnd fst snd] in E1. injection E1 as <-.
        eapply inv_perm; [eapply inv_add; eauto| |].
        + rewrite map_app. apply (NoDup_app_rev _ [v] (map fst D)). cbn. constructor; [|apply (in_nodup _ _ H)].
          intros Hv. apply (in_dom _ _ H) in Hv. eapply find_var_None; eauto.
        + intros x. rewrite in_app_iff. cbn. tauto.
      - destruct (inv_enum _ _ _ _ _ H E1 N1) as (l' & Nu & H1). eexists. split; [apply dc_enum; exact Nu|].
        eapply inv_perm; [exact H1| |].
        + assert (ND := in_nodup _ _ H1). rewrite map_app, map_rev in ND. rewrite map_app. apply NoDup_app_rev. exact ND.
        + intros x. rewrite !in_app_iff, <- in_rev. tauto.
      - injection E1 as <-. exists []. split; [constructor|]. rewrite app_nil_r. revert st H N1 E. induction us as [|u us IHu]; intros st H N1 E; [exact H|].
        cbn [fold_left] in *. apply IHu; [reflexivity|apply inv_use; exact H|exact N1|exact E]. }
    destruct K as (d & Dd & H1). destruct (IH _ _ _ H1 E N W2) as (ds & Ds & H2). exists (d :: ds).
    split; [constructor; auto|]. cbn [List.concat]. rewrite app_assoc. exact H2.
  Qed.
  Lemma inv_empty : inv cs_empty [].
  Proof. constructor; cbn; try tauto; try constructor; try (intros f []). Qed.

  (** C70: in a program whose constant declarations are accepted, every constant is the id
      (or the literal) from whose facts exactly the term it is declared as is read; there
      are facts for nothing else than these terms and what they contain. *)
  Theorem C70_constants : forall items st,
    analyze h items = Some st -> cs_errors st = [] -> forallb written_item items = true -> no_clash h (cs_facts st) ->
    exists ds, Forall2 declares items ds /\
      let D := List.concat ds in
      NoDup (map fst D) /\
      (forall v, constant_of st v <> None <-> In v (map fst D)) /\
      (forall v e, In (v, e) D -> exists c t, constant_of st v = Some c /\ den D e t /\
         forall t', reads is_id (plain (cs_facts st)) (snd c) t' <-> t' = t) /\
      (forall f i l, In (f, i, l) (plain (cs_facts st)) ->
         exists v e t u, In (v, e) D /\ den D e t /\ subterm u t /\ reads is_id (plain (cs_facts st)) i u).
  Proof.
    intros items st E N W NC. destruct (inv_items _ _ _ _ inv_empty E N W) as (ds & Ds & H). cbn [app] in H.
    exists ds. split; [exact Ds|]. cbv zeta. split; [apply (in_nodup _ _ H)|]. split; [|split].
    - intros v. rewrite (in_dom _ _ H). unfold constant_of. destruct (find_var v (cs_vars st)) eqn:Ef; cbn.
      + split; [|congruence]. intros _. eapply find_var_In; eauto.
      + split; [congruence|]. intros I. exfalso. eapply find_var_None; eauto.
    - intros v e I. destruct (in_den _ _ H _ _ I) as (c & t & Ec & Dt & Rt). exists c, t. split; [exact Ec|]. split; [exact Dt|].
      intros t'. split; [|intros ->; exact Rt]. intros R'. eapply reads_fun; [apply made_functional; [apply (in_made _ _ H)|exact NC]|apply made_id; apply (in_made _ _ H)|exact Rt|exact R'].
    - intros f i l I. apply in_map_iff in I. destruct I as (x & Ex & Ix). injection Ex as <- <- <-.
      destruct (in_facts _ _ H _ Ix) as (v & e & t & u & X). eauto 8.
  Qed.

  (** Accepted declarations are not the only ones that go through: the analysis panics for
      no program but one whose enumeration has no numbers left. *)
  Theorem C70_no_panic : forall items, (forall ms, In (IEnum ms) items -> forall a, In a (map snd ms) -> forall z, a = Some (CInt z) -> (z + Z.of_nat (List.length ms) <= imax KI64)%Z) ->
    (forall ms, In (IEnum ms) items -> (Z.of_nat (List.length ms) <= imax KI64)%Z) ->
    exists st, analyze h items = Some st.
  Proof.
    intros items B B'. unfold analyze. generalize cs_empty. induction items as [|i items IH]; intros st; [eexists; reflexivity|].
    cbn [visit_items].
    assert (K : exists st', visit_item h st i = Some st').
    { destruct i as [v ty e|ms|us]; cbn [visit_item].
      - unfold visit_const. destruct (find_var v (cs_vars st)); [eexists; reflexivity|].
        destruct (all_constant (constant_of st) e) eqn:Ea; [|eexists; reflexivity].
        destruct (to_facts_total _ _ Ea) as (r & ->). eexists; reflexivity.
      - assert (X := B ms (or_introl eq_refl)). assert (Y := B' ms (or_introl eq_refl)).
        assert (G : forall ms st p, (match p with Some q => (q + Z.of_nat (List.length ms) <= imax KI64)%Z | None => (Z.of_nat (List.length ms) <= imax KI64)%Z end) ->
          (forall a, In a (map snd ms) -> forall z, a = Some (CInt z) -> (z + Z.of_nat (List.length ms) <= imax KI64)%Z) ->
          exists st', enum_members st p ms = Some st').
        { clear. induction ms as [|[v a] ms IH]; intros st p Bp Ba; [eexists; reflexivity|]. cbn [enum_members].
          cbn [List.length map snd] in *. rewrite Nat2Z.inj_succ in *.
          assert (NX : forall z, extract_value a p = EnumId z -> (z + Z.of_nat (List.length ms) <= imax KI64)%Z).
          { intros z Ez. destruct (extract_given _ _ _ Ez) as [[[G1 G2] L]|[G L]].
            - specialize (Ba a (or_introl eq_refl) z G1). lia.
            - destruct p; lia. }
          destruct (extract_value a p) as [z| |] eqn:Ex.
          - destruct (find_var v (cs_vars st)); [eexists; reflexivity|]. apply IH; [apply NX; reflexivity|].
            intros b Ib z' Ez. specialize (Ba b (or_intror Ib) z' Ez). lia.
          - eexists; reflexivity.
          - exfalso. assert (P : next_id p = EnumPanic).
            { unfold extract_value in Ex. destruct a as [[]|]; auto. destruct (0 <=? z)%Z; auto. destruct p; [destruct (z0 <? z)%Z|]; discriminate Ex. }
            unfold next_id in P. destruct p as [q|]; [|discriminate P]. destruct (Z.leb_spec (q + 1) (imax KI64)) as [L|L]; [discriminate P|]. lia. }
        apply G; [exact Y|exact X].
      - eexists; reflexivity. }
    destruct K as (st' & ->). cbn [obnd]. apply IH; intros; [eapply B|eapply B']; eauto; right; auto.
  Qed.
End Const.
Print Assumptions C70_constants.
Print Assumptions C70_no_panic.

(** A term is all that an entity is written as. *)
Lemma nodup_fun : forall K A (D : list (K * A)) v a b, NoDup (map fst D) -> In (v, a) D -> In (v, b) D -> a = b.
Proof.
  intros K A D v a b. induction D as [|[w c] D IH]; intros N I J; [destruct I|]. inversion N as [|? ? N1 N2]; subst.
  destruct I as [I|I], J as [J|J].
  - congruence.
  - injection I as -> ->. exfalso. apply N1. apply in_map with (f := fst) in J. exact J.
  - injection J as -> ->. exfalso. apply N1. apply in_map with (f := fst) in I. exact I.
  - auto.
Qed.
Lemma den_fun : forall D, NoDup (map fst D) -> forall e t, den D e t -> forall t', den D e t' -> t' = t.
Proof.
  intros D N. apply (den_ind' D (fun e t => forall t', den D e t' -> t' = t)).
  - intros l c t' R. inversion R; subst; reflexivity.
  - intros v e t I _ IH t' R. inversion R as [|v' e' t'' I' R'|]; subst. rewrite (nodup_fun _ _ _ _ _ _ N I' I) in R'. auto.
  - intros l f es ts R IH t' R'. inversion R' as [| |l' f' es' ts' R2]; subst. f_equal. clear R R'. revert ts' R2.
    induction IH as [|x y es ts H IH IH2]; intros ts' R2; inversion R2; subst; [reflexivity|]. f_equal; auto.
Qed.
(** C70: constants that are the same value are the same term. *)
Theorem C70_same_id : forall h items st, analyze h items = Some st -> cs_errors st = [] -> forallb written_item items = true -> no_clash h (cs_facts st) ->
  exists ds, Forall2 declares items ds /\
    forall v w e f c d t u, In (v, e) (List.concat ds) -> In (w, f) (List.concat ds) ->
      constant_of st v = Some c -> constant_of st w = Some d -> snd c = snd d ->
      den (List.concat ds) e t -> den (List.concat ds) f u -> t = u.
Proof.
  intros h items st E N W NC. destruct (C70_constants h items st E N W NC) as (ds & Ds & ND & _ & K & _). exists ds. split; [exact Ds|].
  intros v w e f c d t u I J Ec Ed Q Dt Du. destruct (K _ _ I) as (c' & t' & Ec' & Dt' & Rt). destruct (K _ _ J) as (d' & u' & Ed' & Du' & Ru).
  rewrite Ec in Ec'. injection Ec' as <-. rewrite Ed in Ed'. injection Ed' as <-.
  rewrite (den_fun _ ND _ _ Dt' _ Dt), (den_fun _ ND _ _ Du' _ Du). apply Ru. rewrite <- Q. apply Rt. reflexivity.
Qed.
Print Assumptions C70_same_id.

(** An injective hash for examples: it depends on the functor and the places and values of
    up to two arguments, as far as they are small. *)
Definition ex_feed (f : feed) : Z :=
  match f with
  | FeedLit ((s, a, b), CInt z) => 1 + 3 * (Z.of_nat a + 100 * z)
  | FeedLit ((s, a, b), CEntity z) => 2 + 3 * (Z.of_nat a + 100 * z)
  | _ => 0
  end%Z.
Definition ex_hash (f : string) (l : list feed) : Z :=
  fold_left (fun z x => 1000000 * z + ex_feed x)%Z l (Z.of_nat (String.length f)).
Definition nil_at (n : nat) : ent := NObj (0, n, n + 5) "Nil" [].
Definition cons_at (n : nat) (z : Z) (e : ent) : ent := NObj (0, n, n + 9) "Cons" [NConst ((0, n + 5, n + 6), CInt z); e].
Definition ex_items : list item :=
  [IConst "A" None (nil_at 1); IEnum [("R", None); ("G", Some (CInt 4)); ("B", None)];
   IConst "X" None (cons_at 10 1 (NVar "A")); IConst "Y" None (cons_at 20 1 (nil_at 30)); IUses [((0, 50, 51), "X")]].
Example ex_constants : exists st, analyze ex_hash ex_items = Some st /\ cs_errors st = [] /\ forallb written_item ex_items = true /\
  no_clash ex_hash (cs_facts st) /\ List.length (cs_facts st) = 4 /\
  (exists c, constant_of st "X" = Some c /\ reads is_id (plain (cs_facts st)) (snd c) (App "Cons" [Leaf (CInt 1); App "Nil" []])) /\
  constant_of st "B" = Some (no_loc, CInt 5).
Proof.
  destruct (analyze ex_hash ex_items) as [st|] eqn:E; [|exfalso; vm_compute in E; discriminate E]. exists st. split; [reflexivity|].
  vm_compute in E. injection E as <-. split; [reflexivity|]. split; [reflexivity|]. split; [|split; [reflexivity|split; [|reflexivity]]].
  - intros a b Ia Ib. cbn [cs_facts] in Ia, Ib.
    repeat (destruct Ia as [<-|Ia]; [repeat (destruct Ib as [<-|Ib]; [vm_compute; intros Q; try discriminate Q; auto|]); destruct Ib|]); destruct Ia.
  - eexists. split; [reflexivity|]. eapply rd_app; [right; left; reflexivity|]. constructor; [apply rd_leaf; intros [z Q]; discriminate Q|].
    constructor; [|constructor]. eapply rd_app; [left; reflexivity|constructor].
Qed.

(** The facts that are added to the program are those facts, as rows of the relation of
    their functor, with the id before the arguments. *)
Theorem C70_items : forall st f row, In (("adt#" ++ f)%string, row) (fact_items st) <->
  exists id args, row = id :: args /\ In (mkEfact f id args) (cs_facts st).
Proof.
  intros st f row. unfold fact_items. rewrite in_map_iff. split.
  - intros ([f' id args] & E & I). cbn in E. injection E as E <-. exists id, args. split; [reflexivity|]. rewrite <- E. exact I.
  - intros (id & args & -> & I). exists (mkEfact f id args). split; [reflexivity|exact I].
Qed.
Print Assumptions C70_items.

(** The same term at two places has two ids, unless the hashes of the two happen to be
    the same: the hash is fed the places of the literals. *)
Theorem C73_place_refuted : exists items v w t, forall h st, analyze h items = Some st ->
  cs_errors st = [] /\
  (exists ds e f, Forall2 declares items ds /\ In (v, e) (List.concat ds) /\ In (w, f) (List.concat ds) /\ den (List.concat ds) e t /\ den (List.concat ds) f t) /\
  (no_clash h (cs_facts st) -> option_map snd (constant_of st v) <> option_map snd (constant_of st w)).
Proof.
  exists [IConst "X" None (cons_at 10 1 (NConst ((0, 16, 17), CInt 2))); IConst "Y" None (cons_at 30 1 (NConst ((0, 36, 37), CInt 2)))], "X", "Y", (App "Cons" [Leaf (CInt 1); Leaf (CInt 2)]).
  intros h st E. cbv in E. injection E as <-. split; [reflexivity|]. split.
  - eexists [[_]; [_]], _, _. split; [repeat constructor|]. split; [left; reflexivity|]. split; [right; left; reflexivity|]. split; repeat constructor.
  - intros NC Q. cbn in Q. injection Q as Q. destruct (NC _ _ (or_introl eq_refl) (or_intror (or_introl eq_refl)) Q) as [_ K]. discriminate K.
Qed.
Print Assumptions C73_place_refuted.

(** A constant that is another constant is given the type of entities, whatever it is. *)
Theorem C71_alias_type_refuted : exists items v c, forall h, exists st, analyze h items = Some st /\ cs_errors st = [] /\
  find_var v (cs_vars st) = Some (Some TEntity, c) /\ ~ is_id (snd c).
Proof.
  exists [IConst "A" (Some TI32) (NConst ((0, 10, 11), CInt 3)); IConst "B" (Some TI32) (NVar "A")], "B", ((0, 10, 11), CInt 3).
  intros h. eexists. split; [reflexivity|]. split; [reflexivity|]. split; [reflexivity|]. intros [z Q]. discriminate Q.
Qed.
Print Assumptions C71_alias_type_refuted.

(** ** Enumerations *)
Lemma numbered_sorted : forall p ms l, numbered p ms l -> (forall q, p = Some q -> (0 <= q)%Z) ->
  map fst l = map fst ms /\ Forall (fun z => (0 <= z)%Z /\ forall q, p = Some q -> (q < z)%Z) (map snd l) /\
  StronglySorted Z.lt (map snd l).
Proof.
  intros p ms l N. induction N as [p|p v a z ms l G L N IH|p v a z ms l G L N IH]; intros B; cbn [map fst snd].
  - split; [reflexivity|]. split; constructor.
  - destruct G as [_ G]. destruct IH as (E & F & S); [intros q Q; injection Q as <-; exact G|]. split; [f_equal; exact E|]. split.
    + constructor; [auto|]. eapply Forall_impl; [|exact F]. intros y [Y1 Y2]. split; [exact Y1|]. intros q Q. specialize (L q Q). specialize (Y2 z eq_refl). lia.
    + constructor; [exact S|]. eapply Forall_impl; [|exact F]. intros y [_ Y]. apply Y. reflexivity.
  - assert (Z0 : (0 <= z)%Z /\ forall q, p = Some q -> (q < z)%Z).
    { subst z. destruct p as [q|]; [specialize (B q eq_refl); split; [lia|intros q' Q; injection Q as <-; lia]|split; [lia|discriminate]]. }
    destruct IH as (E & F & S); [intros q Q; injection Q as <-; apply Z0|]. split; [f_equal; exact E|]. split.
    + constructor; [exact Z0|]. eapply Forall_impl; [|exact F]. intros y [Y1 Y2]. split; [exact Y1|]. intros q Q. destruct Z0 as [_ L']. specialize (L' q Q). specialize (Y2 z eq_refl). lia.
    + constructor; [exact S|]. eapply Forall_impl; [|exact F]. intros y [_ Y]. apply Y. reflexivity.
Qed.
Lemma numbered_given : forall p ms l v a z, numbered p ms l -> In (v, a) ms -> given a z -> In (v, z) l.
Proof.
  intros p ms l v a z N. induction N as [p|p w b y ms l G L N IH|p w b y ms l G L N IH]; intros I Gz; [destruct I| |].
  - destruct I as [I|I]; [|right; auto]. injection I as -> ->. left. destruct G as [G _], Gz as [Gz _]. congruence.
  - destruct I as [I|I]; [|right; auto]. injection I as -> ->. exfalso. eapply G; eauto.
Qed.
(** C71: the members of an accepted enumeration are constants with different numbers, which
    increase, and are the ones that are given. *)
Theorem C71_enum : forall h pre ms post st, analyze h (pre ++ IEnum ms :: post) = Some st -> cs_errors st = [] ->
  NoDup (map fst ms) /\
  exists zs, List.length zs = List.length ms /\ StronglySorted Z.lt zs /\ Forall (fun z => (0 <= z)%Z) zs /\
    (forall n v a z, nth_error ms n = Some (v, a) -> nth_error zs n = Some z -> find_var v (cs_vars st) = Some (Some TUSize, (no_loc, CInt z))) /\
    (forall n v z, nth_error ms n = Some (v, Some (CInt z)) -> (0 <= z)%Z -> nth_error zs n = Some z).
Proof.
  intros h pre ms post st E N.
  assert (SPLIT : forall l m st0, visit_items h st0 (l ++ m) = obnd (visit_items h st0 l) (fun s => visit_items h s m)).
  { clear. induction l as [|i l IH]; intros m st0; [reflexivity|]. cbn [app visit_items]. destruct (visit_item h st0 i); cbn [obnd]; auto. }
  unfold analyze in E. rewrite SPLIT in E. destruct (visit_items h cs_empty pre) as [s1|] eqn:E1; [|discriminate E]. cbn [obnd visit_items] in E.
  destruct (visit_item h s1 (IEnum ms)) as [s2|] eqn:E2; [|discriminate E]. cbn [obnd] in E. cbn [visit_item] in E2.
  assert (N2 := items_errors _ _ _ _ E N).
  (* declared constants stay *)
  assert (KEEPU : forall us s v c, find_var v (cs_vars s) = Some c -> find_var v (cs_vars (fold_left visit_use us s)) = Some c).
  { clear. induction us as [|u us IH]; intros s v c F; [exact F|]. cbn [fold_left]. apply IH. unfold visit_use. destruct (find_var (snd u) (cs_vars s)); exact F. }
  assert (KEEPE : forall ms s p s' v c, enum_members s p ms = Some s' -> find_var v (cs_vars s) = Some c -> find_var v (cs_vars s') = Some c).
  { clear. induction ms as [|[w a] ms IH]; intros s p s' v c E F; cbn [enum_members] in E. { injection E as <-. exact F. }
    destruct (extract_value a p) as [z| |]; [|injection E as <-; exact F|discriminate E].
    destruct (find_var w (cs_vars s)) eqn:Fw; [injection E as <-; exact F|]. eapply IH; [exact E|]. cbn [cs_vars].
    rewrite find_var_other; [exact F|]. intros ->. congruence. }
  assert (KEEP : forall l s s' v c, visit_items h s l = Some s' -> find_var v (cs_vars s) = Some c -> find_var v (cs_vars s') = Some c).
  { clear - KEEPU KEEPE. induction l as [|i l IH]; intros s s' v c E F; cbn [visit_items] in E. { injection E as <-. exact F. }
    destruct (visit_item h s i) as [s1|] eqn:E1; [|discriminate E]. cbn [obnd] in E. eapply IH; [exact E|].
    destruct i as [w ty e|ms|us]; cbn [visit_item] in E1.
    - unfold visit_const in E1. destruct (find_var w (cs_vars s)) eqn:Fw; [injection E1 as <-; exact F|].
      destruct (all_constant (constant_of s) e); [|injection E1 as <-; exact F].
      destruct (to_facts h (constant_of s) e) as [r|]; [|discriminate E1]. cbn [obnd] in E1. injection E1 as <-. cbn [cs_vars].
      rewrite find_var_other; [exact F|]. intros ->. congruence.
    - eapply KEEPE; eauto.
    - injection E1 as <-. apply KEEPU. exact F. }
  assert (M : forall ms s p s', enum_members s p ms = Some s' -> cs_errors s' = [] ->
    exists l, numbered p ms l /\ NoDup (map fst ms) /\ (forall v, In v (map fst ms) -> find_var v (cs_vars s) = None) /\
      forall v z, In (v, z) l -> find_var v (cs_vars s') = Some (Some TUSize, (no_loc, CInt z))).
  { clear - KEEPE. induction ms as [|[v a] ms IH]; intros s p s' E N; cbn [enum_members] in E.
    { exists []. split; [constructor|]. split; [constructor|]. split; intros v; [intros []|intros z []]. }
    destruct (extract_value a p) as [z| |] eqn:Ex; [|injection E as <-; discriminate N|discriminate E].
    destruct (find_var v (cs_vars s)) eqn:Ef; [injection E as <-; discriminate N|].
    destruct (IH _ _ _ E N) as (l & Nu & ND & NF & K). exists ((v, z) :: l). split.
    { destruct (extract_given _ _ _ Ex) as [[G L]|[G L]]; [apply num_given; auto|apply num_next; auto]. }
    cbn [map fst]. split.
    { constructor; [|exact ND]. intros I. apply NF in I. cbn [cs_vars] in I. rewrite find_var_here in I. discriminate I. }
    split.
    - intros w [<-|I]; [exact Ef|]. specialize (NF _ I). cbn [cs_vars] in NF. cbn in NF. destruct (String.eqb w v); [discriminate NF|exact NF].
    - intros w y [I|I]; [|auto]. injection I as <- <-. eapply KEEPE; [exact E|]. apply find_var_here. }
  destruct (M _ _ _ _ E2 N2) as (l & Nu & ND & _ & K). split; [exact ND|]. exists (map snd l).
  destruct (numbered_sorted _ _ _ Nu ltac:(discriminate)) as (En & F & S).
  assert (P : forall n v a z, nth_error ms n = Some (v, a) -> nth_error (map snd l) n = Some z -> In (v, z) l).
  { intros n v a z A B. assert (A' : nth_error (map fst l) n = Some v) by (rewrite En, nth_error_map, A; reflexivity).
    rewrite nth_error_map in A', B. destruct (nth_error l n) as [[v' z']|] eqn:En'; [|discriminate B]. cbn in A', B. injection A' as ->. injection B as ->. eapply nth_error_In; eauto. }
  split; [rewrite map_length, <- (map_length fst l), En, map_length; reflexivity|]. split; [exact S|]. split; [eapply Forall_impl; [|exact F]; intros z [Z0 _]; exact Z0|]. split.
  - intros n v a z A B. eapply KEEP; [exact E|]. apply K. eapply P; eauto.
  - intros n v z A G.
    assert (L : (n < List.length (map snd l))%nat).
    { rewrite map_length, <- (map_length fst l), En, map_length. apply nth_error_Some. congruence. }
    destruct (nth_error (map snd l) n) as [y|] eqn:B; [|apply nth_error_None in B; lia]. assert (I := P _ _ _ _ A B).
    assert (J := numbered_given _ _ _ _ _ _ Nu (nth_error_In _ _ A) (conj eq_refl G)).
    assert (NDl : NoDup (map fst l)) by (rewrite En; exact ND). rewrite (nodup_fun _ _ _ _ _ _ NDl I J). reflexivity.
Qed.
Print Assumptions C71_enum.

(** ** Uses of constants *)
Definition declared_names (i : item) : list string :=
  match i with IConst v _ _ => [v] | IEnum ms => map fst ms | IUses _ => [] end.
Definition uses_of (i : item) : list (loc * string) := match i with IUses l => l | _ => [] end.
Lemma loc_eqb_eq : forall a b, loc_eqb a b = true <-> a = b.
Proof.
  intros [[a1 a2] a3] [[b1 b2] b3]. unfold loc_eqb. rewrite !andb_true_iff, !Nat.eqb_eq. split; [intros [[-> ->] ->]; reflexivity|intros Q; injection Q as -> -> ->; auto].
Qed.
Lemma nodup_apart : forall A (a b : list A) x, NoDup (a ++ b) -> In x a -> In x b -> False.
Proof.
  intros A a b x. induction a as [|y a IH]; intros N I J; [destruct I|]. cbn in N. inversion N as [|? ? X Y]; subst.
  destruct I as [->|I]; [|auto]. apply X. apply in_or_app. auto.
Qed.
(** C71: an occurrence of a variable is replaced by the constant exactly if the constant is
    declared before; it has the value of the constant. *)
Theorem C71_uses : forall h items st, analyze h items = Some st -> cs_errors st = [] ->
  NoDup (map fst (flat_map uses_of items)) ->
  forall pre us post l v, items = pre ++ IUses us :: post -> In (l, v) us ->
    (const_at st l v <> None <-> In v (flat_map declared_names pre)) /\
    (forall c, const_at st l v = Some c -> fst c = l /\ option_map snd (constant_of st v) = Some (snd c)).
Proof.
  intros h items st E N ND pre us post l v -> I.
  split.
  2: { intros c Ec. unfold const_at in Ec. destruct (used_at st l); [|discriminate Ec]. destruct (constant_of st v) as [d|]; [|discriminate Ec]. injection Ec as <-. split; reflexivity. }
  assert (SPLIT : forall l m st0, visit_items h st0 (l ++ m) = obnd (visit_items h st0 l) (fun s => visit_items h s m)).
  { clear. induction l as [|i l IH]; intros m st0; [reflexivity|]. cbn [app visit_items]. destruct (visit_item h st0 i); cbn [obnd]; auto. }
  (* the variables of a fold of uses, and its uses *)
  assert (UV : forall us s, cs_vars (fold_left visit_use us s) = cs_vars s).
  { clear. induction us as [|u us IH]; intros s; [reflexivity|]. cbn [fold_left]. rewrite IH. unfold visit_use. destruct (find_var _ _); reflexivity. }
  assert (UU : forall us s x, In x (cs_uses (fold_left visit_use us s)) <-> In x (cs_uses s) \/ (In x us /\ find_var (snd x) (cs_vars s) <> None)).
  { clear. induction us as [|u us IH]; intros s x; cbn [fold_left]; [cbn; tauto|]. rewrite IH. unfold visit_use.
    destruct (find_var (snd u) (cs_vars s)) eqn:F; cbn [cs_uses cs_vars]; split.
    - intros [[->|A]|[A B]]; [right; split; [left; reflexivity|congruence]|auto|right; split; [right; exact A|exact B]].
    - intros [A|[[->|A] B]]; [left; right; exact A|left; left; reflexivity|right; auto].
    - intros [A|[A B]]; [auto|right; split; [right; exact A|exact B]].
    - intros [A|[[->|A] B]]; [auto|congruence|right; auto]. }
  assert (EU : forall ms s p s', enum_members s p ms = Some s' -> cs_uses s' = cs_uses s).
  { clear. induction ms as [|[w a] ms IH]; intros s p s' E; cbn [enum_members] in E. { injection E as <-. reflexivity. }
    destruct (extract_value a p) as [z| |]; [|injection E as <-; reflexivity|discriminate E].
    destruct (find_var w (cs_vars s)); [injection E as <-; reflexivity|]. rewrite (IH _ _ _ E). reflexivity. }
  assert (EV : forall ms s p s', enum_members s p ms = Some s' -> cs_errors s' = [] -> forall w, find_var w (cs_vars s') <> None <-> In w (map fst ms) \/ find_var w (cs_vars s) <> None).
  { clear. induction ms as [|[w a] ms IH]; intros s p s' E N x; cbn [enum_members] in E. { injection E as <-. cbn. tauto. }
    destruct (extract_value a p) as [z| |]; [|injection E as <-; discriminate N|discriminate E].
    destruct (find_var w (cs_vars s)) eqn:F; [injection E as <-; discriminate N|]. rewrite (IH _ _ _ E N x). cbn [cs_vars find_var map fst In].
    destruct (String.eqb_spec x w) as [->|D]; [split; [auto|right; discriminate]|]. split; [tauto|]. intros [[->|A]|A]; [congruence|auto|auto]. }
  assert (STEP : forall l s s', visit_items h s l = Some s' -> cs_errors s' = [] ->
    (forall w, find_var w (cs_vars s') <> None <-> In w (flat_map declared_names l) \/ find_var w (cs_vars s) <> None) /\
    (forall x, In x (cs_uses s') -> In x (cs_uses s) \/ In x (flat_map uses_of l)) /\ (forall x, In x (cs_uses s) -> In x (cs_uses s'))).
  { clear - UV UU EU EV. induction l as [|i l IH]; intros s s' E N; cbn [visit_items] in E. { injection E as <-. cbn. split; [tauto|]. auto. }
    destruct (visit_item h s i) as [s1|] eqn:E1; [|discriminate E]. cbn [obnd] in E. destruct (IH _ _ E N) as (A & B & C). assert (N1 := items_errors _ _ _ _ E N).
    assert (K : (forall w, find_var w (cs_vars s1) <> None <-> In w (declared_names i) \/ find_var w (cs_vars s) <> None) /\
                (forall x, In x (cs_uses s1) -> In x (cs_uses s) \/ In x (uses_of i)) /\ (forall x, In x (cs_uses s) -> In x (cs_uses s1))).
    { destruct i as [w ty e|ms|us]; cbn [visit_item declared_names uses_of] in *.
      - unfold visit_const in E1. destruct (find_var w (cs_vars s)) eqn:F; [injection E1 as <-; discriminate N1|].
        destruct (all_constant (constant_of s) e); [|injection E1 as <-; discriminate N1].
        destruct (to_facts h (constant_of s) e) as [r|]; [|discriminate E1]. cbn [obnd] in E1. injection E1 as <-. cbn [cs_vars cs_uses]. split; [|auto].
        intros x. cbn [find_var In]. destruct (String.eqb_spec x w) as [->|D]; [split; [auto|intros _; discriminate]|]. split; [tauto|]. intros [[->|[]]|Q]; [congruence|auto].
      - split; [apply (EV _ _ _ _ E1 N1)|]. rewrite (EU _ _ _ _ E1). auto.
      - injection E1 as <-. split; [intros w; rewrite UV; cbn; tauto|]. split; intros x; rewrite UU; tauto. }
    destruct K as (A1 & B1 & C1). cbn [flat_map]. split; [|split; [|auto]].
    - intros w. rewrite A, A1, in_app_iff. tauto.
    - intros x Q. rewrite in_app_iff. destruct (B _ Q) as [Q'|Q']; [destruct (B1 _ Q')|]; auto. }
  unfold analyze in E. rewrite SPLIT in E. destruct (visit_items h cs_empty pre) as [s1|] eqn:E1; [|discriminate E]. cbn [obnd visit_items visit_item] in E.
  assert (N2 := items_errors _ _ _ _ E N). assert (N1 := N2). rewrite uses_errors in N1.
  destruct (STEP _ _ _ E1 N1) as (A1 & B1 & _). destruct (STEP _ _ _ E N) as (A2 & B2 & C2). clear STEP SPLIT.
  assert (D1 : find_var v (cs_vars s1) <> None <-> In v (flat_map declared_names pre)) by (rewrite A1; cbn; tauto).
  rewrite <- D1. unfold const_at. split.
  - intros Q. destruct (used_at st l) eqn:U; [|congruence]. apply existsb_exists in U. destruct U as ([l' v'] & Iu & El). apply loc_eqb_eq in El. cbn in El. subst l'.
    rewrite flat_map_app, map_app in ND. cbn [flat_map uses_of] in ND. rewrite map_app in ND.
    assert (ONE : forall v' , In (l, v') (flat_map uses_of pre ++ us ++ flat_map uses_of post) -> v' = v).
    { intros w Iw. eapply nodup_fun; [|exact Iw|apply in_or_app; right; apply in_or_app; left; exact I]. rewrite !map_app. exact ND. }
    assert (Il : In l (map fst us)) by (apply in_map with (f := fst) in I; exact I).
    assert (NP : forall w, ~ In (l, w) (flat_map uses_of pre)).
    { intros w Iw. apply in_map with (f := fst) in Iw. eapply nodup_apart; [exact ND|exact Iw|apply in_or_app; left; exact Il]. }
    assert (NQ : forall w, ~ In (l, w) (flat_map uses_of post)).
    { intros w Iw. apply in_map with (f := fst) in Iw. rewrite app_assoc in ND. eapply nodup_apart; [exact ND|apply in_or_app; right; exact Il|exact Iw]. }
    destruct (B2 _ Iu) as [Iu'|Iu']; [|exfalso; eapply NQ; eauto]. apply UU in Iu'. destruct Iu' as [Iu'|[Iu' F]].
    + exfalso. destruct (B1 _ Iu') as [[]|X]. eapply NP; eauto.
    + cbn [snd] in F. rewrite <- (ONE v' ltac:(apply in_or_app; right; apply in_or_app; left; exact Iu')). exact F.
  - intros F. assert (U : used_at st l = true).
    { apply existsb_exists. exists (l, v). split; [|apply loc_eqb_eq; reflexivity]. apply C2. apply UU. right. auto. }
    rewrite U. assert (F2 : find_var v (cs_vars st) <> None) by (apply A2; right; rewrite UV; exact F).
    unfold constant_of. destruct (find_var v (cs_vars st)); [discriminate|congruence].
Qed.
Print Assumptions C71_uses.
Example ex_uses : exists st, analyze ex_hash (IUses [((0, 70, 71), "X")] :: ex_items) = Some st /\ cs_errors st = [] /\
  const_at st (0, 70, 71) "X" = None /\ const_at st (0, 50, 51) "X" <> None.
Proof. eexists. split; [reflexivity|]. split; [reflexivity|]. split; [reflexivity|]. vm_compute. discriminate. Qed.
(** A constant that is used before its declaration is taken for a variable. *)
Theorem C71_before_refuted : exists items l v, forall h, exists st, analyze h items = Some st /\ cs_errors st = [] /\
  In (l, v) (flat_map uses_of items) /\ In v (flat_map declared_names items) /\ const_at st l v = None.
Proof.
  exists [IUses [((0, 1, 2), "A")]; IConst "A" None (NConst ((0, 10, 11), CInt 3))], (0, 1, 2), "A".
  intros h. eexists. split; [reflexivity|]. split; [reflexivity|]. split; [left; reflexivity|]. split; [left; reflexivity|reflexivity].
Qed.
Print Assumptions C71_before_refuted.
