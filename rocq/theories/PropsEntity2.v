(** C70 and C73, continued: entities that are given as strings, and entities made at run time. *)
From Coq Require Import List ZArith Bool String Lia.
From Verif Require Import Value Back Eval TypeSet Infer Front Cast Entity PropsEntity.
Import ListNotations.
Local Open Scope string_scope.
Local Open Scope list_scope.

(** ** Specification *)
(** The term over values that a string stands for, at a type: constants have the value they
    have in a program (Cast.v), a variant has its arguments at the declared types.  [strict]:
    an entity is not an integer. *)
Inductive tden (strict : bool) (c : conv) (reg : string -> option variant) : vtype -> ent -> term value -> Prop :=
| td_const t l k v : const_value c k t = Some v -> tden strict c reg t (NConst (l, k)) (Leaf v)
| td_obj t l f va t0 ts es us : (strict = true -> t = TEntity) -> reg f = Some va -> va_types va = t0 :: ts -> List.length ts = List.length es ->
    Forall2 (fun te u => tden strict c reg (fst te) (snd te) u) (combine ts es) us -> tden strict c reg t (NObj l f es) (App (va_relation va) us).
Definition is_entity (v : value) : Prop := exists z, v = VEntity z.
Lemma parse_const_value : forall c k t v, parse_const c k t = Some v -> const_value c k t = Some v /\ ~ is_entity v.
Proof.
  intros c k t v E. assert (N : forall i z, ~ is_entity (of_int i z)) by (intros [] z [y Q]; discriminate Q).
  destruct k, t; cbn in *; try discriminate E; injection E as <-; (split; [reflexivity|]); first [apply N | intros [y Q]; discriminate Q].
Qed.

Section Strings.
  Variables (h : string -> list feed -> Z) (c : conv) (reg : string -> option variant).
  Lemma parse_ok : forall e ty fs v, parse_entity h c reg e ty = Some (fs, v) ->
    (forall f i l, In (f, i, l) fs -> is_entity i) /\ exists t, tden false c reg ty e t /\ reads is_entity fs v t.
  Proof.
    induction e as [[l k]|x| |l f es IH] using ent_ind'; intros ty fs v E; cbn [parse_entity] in E; try discriminate E.
    - destruct (parse_const c (snd (l, k)) ty) as [w|] eqn:Ek; [|discriminate E]. cbn [obnd] in E. injection E as <- <-. split; [intros f i m []|].
      apply parse_const_value in Ek. destruct Ek as [E1 E2]. exists (Leaf w). split; [constructor; exact E1|apply rd_leaf; exact E2].
    - destruct (reg f) as [va|] eqn:Er; [|discriminate E]. cbn [obnd] in E. destruct (va_types va) as [|t0 ts] eqn:Et; [discriminate E|].
      destruct (Nat.eqb_spec (List.length ts) (List.length es)) as [L|L]; [|discriminate E].
      set (go := fix go (l : list ent) (ts : list vtype) : option (list (list vfact * value)) :=
         match l, ts with
         | a :: l, t :: ts => obnd (parse_entity h c reg a t) (fun r => obnd (go l ts) (fun rs => Some (r :: rs)))
         | _, _ => Some []
         end) in E.
      destruct (go es ts) as [rs|] eqn:Eg; [|discriminate E]. cbn [obnd] in E. injection E as <- <-.
      assert (K : forall G, (forall x, In x (List.concat (map fst rs)) -> In x G) -> (forall f i l, In (f, i, l) (List.concat (map fst rs)) -> is_entity i) /\
        exists us, Forall2 (fun te u => tden false c reg (fst te) (snd te) u) (combine ts es) us /\ Forall2 (reads is_entity G) (map snd rs) us).
      { clear Er Et. revert ts rs L Eg. induction IH as [|e es He IH IH2]; intros ts rs L Eg G IG.
        - destruct ts; [|discriminate L]. cbn in Eg. injection Eg as <-. split; [intros ? ? ? []|]. exists []. split; constructor.
        - destruct ts as [|t ts]; [discriminate L|]. cbn [go] in Eg. fold go in Eg. destruct (parse_entity h c reg e t) as [[f1 v1]|] eqn:E1; [|discriminate Eg]. cbn [obnd] in Eg.
          destruct (go es ts) as [rs'|] eqn:E2; [|discriminate Eg]. cbn [obnd] in Eg. injection Eg as <-. cbn [map fst List.concat] in IG.
          destruct (He _ _ _ E1) as (I1 & u & D1 & R1). injection L as L.
          destruct (IH2 _ _ L E2 G) as (I2 & us & D2 & R2). { intros x Hx. apply IG. apply in_or_app. auto. }
          split. { intros f' i m Hx. cbn [map fst List.concat] in Hx. apply in_app_or in Hx. destruct Hx; eauto. }
          exists (u :: us). split; [constructor; [exact D1|exact D2]|]. cbn. constructor; [|exact R2].
          eapply reads_mono; [|exact R1]. intros x Hx. apply IG. apply in_or_app. auto. }
      set (new := (va_relation va, VEntity (h f (map FeedVal (map snd rs))), map snd rs) : vfact).
      destruct (K (List.concat (map fst rs) ++ [new])) as (I & us & D & R). { intros x Hx. apply in_or_app. auto. }
      split. { intros f' i m Hx. apply in_app_or in Hx. destruct Hx as [Hx|[Q|[]]]; [eauto|]. injection Q as _ <- _. eexists. reflexivity. }
      exists (App (va_relation va) us). split; [eapply td_obj; eauto; discriminate|]. eapply rd_app; [apply in_or_app; right; left; reflexivity|exact R].
  Qed.
End Strings.

(** C70: an entity string that is accepted becomes the id from whose facts exactly the
    term is read that the string stands for. *)
Theorem C70_strings : forall h c reg e ty fs v, parse_entity h c reg e ty = Some (fs, v) -> functional fs ->
  exists t, tden false c reg ty e t /\ forall t', reads is_entity fs v t' <-> t' = t.
Proof.
  intros h c reg e ty fs v E F. destruct (parse_ok _ _ _ _ _ _ _ E) as (I & t & D & R). exists t. split; [exact D|].
  intros t'. split; [|intros ->; exact R]. intros R'. eapply reads_fun; eauto.
Qed.
Print Assumptions C70_strings.

(** Every string that stands for a term is accepted if its constants are numbers,
    booleans, characters or strings. *)
Fixpoint parsable (e : ent) : bool :=
  match e with
  | NConst (_, (CSymbol _ | CDateTime _ | CDuration _ | CEntity _)) => false
  | NObj _ _ l => forallb parsable l
  | _ => true
  end.
Theorem C70_strings_complete : forall h c reg e ty t, tden false c reg ty e t -> parsable e = true -> exists r, parse_entity h c reg e ty = Some r.
Proof.
  intros h c reg. induction e as [[l k]|x| |l f es IH] using ent_ind'; intros ty t D P.
  - inversion D as [ty' l' k' v E|]; subst. cbn [parse_entity snd].
    assert (Q : parse_const c k ty = Some v) by (destruct k; cbn in P; try discriminate P; destruct ty; exact E). rewrite Q. eexists; reflexivity.
  - inversion D.
  - inversion D.
  - inversion D as [|ty' l' f' va t0 ts es' us St Er Et L F]; subst. cbn [parse_entity]. rewrite Er. cbn [obnd]. rewrite Et.
    rewrite (proj2 (Nat.eqb_eq _ _) L). cbn [parsable] in P.
    set (go := fix go (l : list ent) (ts : list vtype) : option (list (list vfact * value)) :=
         match l, ts with
         | a :: l, t :: ts => obnd (parse_entity h c reg a t) (fun r => obnd (go l ts) (fun rs => Some (r :: rs)))
         | _, _ => Some []
         end).
    assert (K : exists rs, go es ts = Some rs).
    { clear Er Et D. revert ts us L F. induction IH as [|e es He IH IH2]; intros ts us L F.
      - exists []. destruct ts; reflexivity.
      - destruct ts as [|t ts]; [discriminate L|]. injection L as L. cbn [combine] in F. inversion F as [|? u ? us' D1 F']; subst. cbn [fst snd] in D1.
        cbn [forallb] in P. apply andb_prop in P. destruct P as [P1 P2]. destruct (He _ _ D1 P1) as (r & E1). destruct (IH2 P2 _ _ L F') as (rs & E2).
        cbn [go]. fold go. rewrite E1. cbn [obnd]. rewrite E2. eexists; reflexivity. }
    destruct K as (rs & ->). eexists; reflexivity.
Qed.
Print Assumptions C70_strings_complete.

(** Examples *)
Definition conv0 : conv := mkConv (fun _ z => z) (fun _ z => z) (fun _ _ => None) (fun _ => "") (fun _ => "") (fun _ => None) (fun _ => 0%Z).
Definition list_reg (f : string) : option variant :=
  if String.eqb f "Nil" then Some (mkVariant "adt#Nil" [TEntity])
  else if String.eqb f "Cons" then Some (mkVariant "adt#Cons" [TEntity; TI32; TEntity])
  else if String.eqb f "Name" then Some (mkVariant "adt#Name" [TEntity; TSymbol]) else None.
Definition val_hash (f : string) (l : list feed) : Z :=
  fold_left (fun z x => 1000 * z + match x with FeedVal (I32 n) => 1 + n | FeedVal (VEntity n) => 100 + n | _ => 0 end)%Z l (Z.of_nat (String.length f)).
Example ex_string : exists fs v, parse_entity val_hash conv0 list_reg (cons_at 10 7 (nil_at 20)) TEntity = Some (fs, v) /\ functional fs /\
  reads is_entity fs v (App "adt#Cons" [Leaf (I32 7); App "adt#Nil" []]).
Proof.
  eexists _, _. split; [reflexivity|]. split.
  - intros f g i l m I J. cbn in I, J. repeat (destruct I as [I|I]; [injection I as <- <- <-|]); repeat (destruct J as [J|J]; [try discriminate J; injection J as <- <-; auto|]); try destruct I; try destruct J.
  - eapply rd_app; [right; left; reflexivity|]. constructor; [apply rd_leaf; intros [z Q]; discriminate Q|]. constructor; [|constructor].
    eapply rd_app; [left; reflexivity|constructor].
Qed.

(** An entity is accepted where a number is declared. *)
Theorem C73_string_type_refuted : exists e, forall h, exists r, parse_entity h conv0 list_reg e TEntity = Some r /\ forall t, ~ tden true conv0 list_reg TEntity e t.
Proof.
  exists (NObj (0, 1, 2) "Cons" [nil_at 3; nil_at 9]). intros h. eexists. split; [reflexivity|].
  intros t D. inversion D as [|ty l f va t0 ts es us St Er Et L F]; subst. vm_compute in Er. injection Er as <-. cbn in Et. injection Et as <- <-.
  cbn [combine] in F. inversion F as [|? ? ? ? D1 F']; subst. cbn [fst snd] in D1. inversion D1 as [|tyb lb fb vab t0b tsb esb usb Stb]; subst. discriminate (Stb eq_refl).
Qed.
Print Assumptions C73_string_type_refuted.
(** A symbol, which a program may write in such a term, is not accepted in a string. *)
Theorem C73_string_symbol_refuted : exists e t, tden true conv0 list_reg TEntity e t /\ forall h, parse_entity h conv0 list_reg e TEntity = None.
Proof.
  exists (NObj (0, 1, 2) "Name" [NConst ((0, 3, 4), CSymbol "a")]), (App "adt#Name" [Leaf (VSymbol 0)]). split; [|reflexivity].
  eapply td_obj with (va := mkVariant "adt#Name" [TEntity; TSymbol]) (ts := [TSymbol]); try reflexivity. constructor; [|constructor]. constructor. reflexivity.
Qed.
Print Assumptions C73_string_symbol_refuted.
(** An entity that a rule makes with [new] has another id than the constant, and than the
    string, with the same term: the name that is hashed has a prefix. *)
Theorem C73_new_refuted : exists e f, den [] e (App f []) /\ forall h, h f [] <> h (adt_name f) [] ->
  (exists fs c, to_facts h (fun _ => None) e = Some (fs, c) /\ new_id h f [] <> match snd c with CEntity z => VEntity z | _ => VBool true end) /\
  (exists fs v, parse_entity h conv0 list_reg e TEntity = Some (fs, v) /\ new_id h f [] <> v).
Proof.
  exists (nil_at 3), "Nil". split; [constructor; constructor|]. intros h N. split.
  - eexists _, _. split; [reflexivity|]. cbn. unfold new_id. intros Q. injection Q as Q. apply N. symmetry. exact Q.
  - eexists _, _. split; [reflexivity|]. unfold new_id. intros Q. injection Q as Q. apply N. symmetry. exact Q.
Qed.
Print Assumptions C73_new_refuted.
