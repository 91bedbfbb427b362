(** C34-C37: symbol interning, identifier allocation, combination
    enumeration, in-place filtering. *)
From Coq Require Import List Arith Bool String NArith Lia Permutation.
From Verif Require Import ListAux Utils.
Import ListNotations.
Set Implicit Arguments.

(** ** C34 *)
Definition reg_ok (r : registry) : Prop :=
  (forall s i, sfind (sym_to_id r) s = Some i <-> nth_error (id_to_sym r) i = Some s) /\
  NoDup (id_to_sym r).

Lemma reg_new_ok : reg_ok reg_new.
Proof. split; [|constructor]. intros s i; simpl. destruct i; split; discriminate. Qed.

Lemma register_step : forall r s, reg_ok r ->
  let (r', i) := register r s in
  reg_ok r' /\ nth_error (id_to_sym r') i = Some s /\
  (forall j t, nth_error (id_to_sym r) j = Some t -> nth_error (id_to_sym r') j = Some t).
Proof.
  intros r s [H N]. unfold register. destruct (sfind (sym_to_id r) s) as [id|] eqn:E.
  - split; [split; auto|]. split; [apply H; auto|auto].
  - assert (NI : ~ In s (id_to_sym r)).
    { intros I. apply In_nth_error in I as [j J]. apply H in J. congruence. }
    split; [|split].
    + split; simpl.
      * intros t i. destruct (String.eqb s t) eqn:E2.
        -- apply String.eqb_eq in E2. subst t. split; intros K.
           ++ injection K as <-. apply nth_error_app_len.
           ++ destruct (Nat.lt_ge_cases i (List.length (id_to_sym r))).
              ** rewrite nth_error_app1 in K by lia. apply nth_error_In in K. tauto.
              ** rewrite nth_error_app2 in K by lia.
                 destruct (i - List.length (id_to_sym r)) as [|[|?]] eqn:Z; try discriminate.
                 f_equal. lia.
        -- apply String.eqb_neq in E2. rewrite H. split; intros K.
           ++ rewrite nth_error_app1; auto. apply nth_error_Some. congruence.
           ++ destruct (Nat.lt_ge_cases i (List.length (id_to_sym r))).
              ** rewrite nth_error_app1 in K by lia. auto.
              ** rewrite nth_error_app2 in K by lia.
                 destruct (i - List.length (id_to_sym r)) as [|[|?]] eqn:Z; simpl in K; try discriminate.
                 congruence.
      * apply (Permutation_NoDup (Permutation_cons_append (id_to_sym r) s)). constructor; auto.
    + simpl. apply nth_error_app_len.
    + simpl. intros j t J. rewrite nth_error_app1; auto. apply nth_error_Some; congruence.
Qed.

Lemma register_all_ok : forall l r, reg_ok r ->
  let (r', is) := register_all r l in
  reg_ok r' /\ Forall2 (fun s i => nth_error (id_to_sym r') i = Some s) l is /\
  (forall j t, nth_error (id_to_sym r) j = Some t -> nth_error (id_to_sym r') j = Some t).
Proof.
  induction l as [|s l IH]; simpl; intros r R; auto.
  pose proof (register_step s R) as S1. destruct (register r s) as [r1 i].
  destruct S1 as (R1 & N1 & M1). specialize (IH r1 R1).
  destruct (register_all r1 l) as [r2 is]. destruct IH as (R2 & F2 & M2).
  split; [auto|]. split; [constructor; auto|auto].
Qed.

Lemma Forall2_nth : forall A B (P : A -> B -> Prop) l m, Forall2 P l m ->
  forall n x y, nth_error l n = Some x -> nth_error m n = Some y -> P x y.
Proof.
  induction 1; intros n a b; destruct n; simpl; try discriminate.
  - intros E1 E2; injection E1 as <-; injection E2 as <-; auto.
  - eauto.
Qed.

Lemma Forall2_len : forall A B (P : A -> B -> Prop) l m, Forall2 P l m -> List.length l = List.length m.
Proof. induction 1; simpl; auto. Qed.

(** For every sequence [l] of registrations on an empty registry, with returned
    ids [is]: one id per registration, equal ids exactly for equal strings,
    looking an id up gives the string it was issued for, looking the string up
    gives the id. *)
Theorem C34_interning : forall l r is, register_all reg_new l = (r, is) ->
  List.length is = List.length l /\
  (forall n m s t i j, nth_error l n = Some s -> nth_error l m = Some t ->
     nth_error is n = Some i -> nth_error is m = Some j -> (i = j <-> s = t)) /\
  (forall n s i, nth_error l n = Some s -> nth_error is n = Some i ->
     get_symbol r i = Some s /\ get_id r s = Some i) /\
  (forall s, get_id r s = None <-> ~ In s l).
Proof.
  intros l r is E. pose proof (register_all_ok l reg_new_ok) as H. rewrite E in H.
  destruct H as ((R & N) & F & _). split; [|split; [|split]].
  - symmetry. eapply Forall2_len; eauto.
  - intros n m s t i j Ln Lm In Im.
    pose proof (Forall2_nth F _ Ln In) as A. pose proof (Forall2_nth F _ Lm Im) as B.
    simpl in A, B. split; intros ->; [congruence|].
    apply (proj1 (NoDup_nth_error _) N); [apply nth_error_Some; congruence|congruence].
  - intros n s i Ln In. pose proof (Forall2_nth F _ Ln In) as A. split; [auto|apply R; auto].
  - intros s. unfold get_id. split.
    + intros G I. apply In_nth_error in I as [n Ln].
      destruct (nth_error is n) as [i|] eqn:In.
      * pose proof (Forall2_nth F _ Ln In) as A. apply R in A. congruence.
      * apply nth_error_None in In. apply Forall2_len in F.
        assert (n < List.length l) by (apply nth_error_Some; congruence). lia.
    + intros NI. destruct (sfind (sym_to_id r) s) as [i|] eqn:G; auto. exfalso. apply NI.
      clear R N F. revert E G.
      assert (K : forall l r0 r is, register_all r0 l = (r, is) -> sfind (sym_to_id r) s = Some i ->
                  In s l \/ exists i, sfind (sym_to_id r0) s = Some i).
      { clear. induction l as [|x l IH]; simpl; intros r0 r is E G.
        - injection E as <- <-. eauto.
        - destruct (register r0 x) as [r1 j] eqn:E1. destruct (register_all r1 l) as [r2 js] eqn:E2.
          injection E as <- <-. destruct (IH _ _ _ E2 G) as [I|[k K]]; auto.
          unfold register in E1. destruct (sfind (sym_to_id r0) x) eqn:E3.
          + injection E1 as <- <-. eauto.
          + injection E1 as <- <-. simpl in K. destruct (String.eqb x s) eqn:E4; eauto.
            left; left. apply String.eqb_eq; auto. }
      intros E G. destruct (K _ _ _ _ E G) as [I|[k Z]]; auto. discriminate Z.
Qed.
Print Assumptions C34_interning.

(** Ids never change: later registrations leave every earlier lookup as it was. *)
Theorem C34_stable : forall l l' r is r' is',
  register_all reg_new l = (r, is) -> register_all r l' = (r', is') ->
  (forall s i, get_id r s = Some i -> get_id r' s = Some i) /\
  (forall s i, get_symbol r i = Some s -> get_symbol r' i = Some s).
Proof.
  intros l l' r is r' is' E E'. pose proof (register_all_ok l reg_new_ok) as H. rewrite E in H.
  destruct H as (R & F & _). pose proof (register_all_ok l' R) as H'. rewrite E' in H'.
  destruct H' as (R' & F' & M). split; intros s i G.
  - apply R'. apply M. apply R. auto.
  - apply M; auto.
Qed.
Print Assumptions C34_stable.

Open Scope string_scope.
Example C34_example :
  register_all reg_new ["a"; "b"; "a"; "c"; "b"] =
  (mkReg [("c", 2); ("b", 1); ("a", 0)] ["a"; "b"; "c"], [0; 1; 0; 2; 1]).
Proof. reflexivity. Qed.
Close Scope string_scope.

(** ** C35 *)
Lemma alloc_n_spec : forall n w id, (0 < w)%N -> (id < w)%N ->
  snd (alloc_n w n id) = map (fun k => ((id + N.of_nat k) mod w)%N) (seq 0 n).
Proof.
  induction n; intros w id W I; [reflexivity|]. simpl.
  destruct (alloc_n w n ((id + 1) mod w)%N) as [id2 rs] eqn:E. simpl.
  assert (L : ((id + 1) mod w < w)%N) by (apply N.mod_lt; lia).
  pose proof (IHn w _ W L) as H. rewrite E in H. simpl in H. rewrite H. f_equal.
  - rewrite N.add_0_r, N.mod_small; auto.
  - rewrite <- seq_shift, map_map. apply map_ext. intros k.
    rewrite N.add_mod_idemp_l by lia. f_equal. lia.
Qed.

(** Up to [w] allocations ([w = 2^64] for [usize]) from any starting value
    return pairwise different identifiers. *)
Theorem C35_unique : forall w start n, (start < w)%N -> (N.of_nat n <= w)%N ->
  NoDup (snd (alloc_n w n start)) /\ List.length (snd (alloc_n w n start)) = n.
Proof.
  intros w start n L B. rewrite alloc_n_spec by lia. split; [|rewrite map_length, seq_length; auto].
  assert (G : forall l, (forall k, In k l -> (N.of_nat k < w)%N) -> NoDup l ->
              NoDup (map (fun k => ((start + N.of_nat k) mod w)%N) l)).
  { induction l as [|k l IH]; intros C D; simpl; [constructor|]. inversion D; subst.
    constructor; [|apply IH; auto; intros; apply C; right; auto].
    intros I. apply in_map_iff in I as (j & E & J).
    assert (N.of_nat j < w)%N by (apply C; right; auto).
    assert (N.of_nat k < w)%N by (apply C; left; auto).
    assert (D1 : forall x, (x < w -> (start + x) mod w = if start + x <? w then start + x else start + x - w)%N).
    { intros x X. destruct (start + x <? w)%N eqn:Z.
      - apply N.ltb_lt in Z. apply N.mod_small; auto.
      - apply N.ltb_ge in Z. symmetry. apply (N.mod_unique _ _ 1); lia. }
    rewrite !D1 in E by auto.
    destruct (start + N.of_nat j <? w)%N eqn:Z1, (start + N.of_nat k <? w)%N eqn:Z2;
      rewrite ?N.ltb_lt, ?N.ltb_ge in *; assert (j = k) by lia; subst; tauto. }
  apply G; [|apply seq_NoDup]. intros k I. apply in_seq in I. lia.
Qed.
Print Assumptions C35_unique.

(** The bound is tight: one more allocation repeats an identifier. *)
Theorem C35_wraps : forall w start, (start < w)%N ->
  ~ NoDup (snd (alloc_n w (S (N.to_nat w)) start)).
Proof.
  intros w start L. rewrite alloc_n_spec by lia. intros D.
  rewrite seq_S, map_app in D. simpl in D.
  apply NoDup_remove in D. rewrite app_nil_r in D. destruct D as [_ D]. apply D.
  apply in_map_iff. exists 0. split; [|apply in_seq; lia].
  rewrite N2Nat.id. change (N.of_nat 0) with 0%N. rewrite N.add_0_r.
  pose proof (N.mod_add start 1 w) as M. rewrite N.mul_1_l in M. rewrite M by lia. auto.
Qed.
Print Assumptions C35_wraps.

Example C35_example : snd (alloc_n 18446744073709551616%N 3 7%N) = [7; 8; 9]%N.
Proof. reflexivity. Qed.

(** ** C36 *)
Definition in_range (total v : list nat) : Prop := Forall2 lt v total.
Definition prod (l : list nat) : nat := fold_right Nat.mul 1 l.

(** mixed-radix value, least significant digit first *)
Fixpoint code (total v : list nat) : nat :=
  match total, v with
  | t :: total', d :: v' => d + t * code total' v'
  | _, _ => 0
  end.

Lemma code_lt : forall total v, in_range total v -> code total v < prod total.
Proof.
  intros total v H. induction H as [|d t v total L F IH]; simpl; [lia|].
  unfold prod in *. simpl. nia.
Qed.

Lemma code_inj : forall total v w, in_range total v -> in_range total w ->
  code total v = code total w -> v = w.
Proof.
  intros total v w H. revert w. induction H as [|d t v total L F IH]; intros w K E.
  - inversion K; auto.
  - inversion K as [|d' t' v' total' L' F']; subst. simpl in E.
    assert (d = d' /\ code total v = code total v') as [-> E'].
    { rewrite (Nat.mul_comm t), (Nat.mul_comm t) in E.
      assert (A : d = (d + code total v * t) mod t) by (rewrite Nat.mod_add by lia; symmetry; apply Nat.mod_small; auto).
      assert (B : d' = (d' + code total v' * t) mod t) by (rewrite Nat.mod_add by lia; symmetry; apply Nat.mod_small; auto).
      split; [congruence|]. assert (d = d') by congruence. subst. nia. }
    f_equal; auto.
Qed.

(** what one bump does, from digit [k] on *)
Lemma cart_bump_spec : forall tot v, in_range tot v -> forall p q k fuel,
  k = List.length p -> k = List.length q -> List.length v < fuel ->
  exists v' h, cart_bump fuel k (p ++ tot) (q ++ v) = Some (q ++ v', h) /\
    in_range tot v' /\
    (h = true -> code tot v' = S (code tot v)) /\
    (h = false -> S (code tot v) = prod tot).
Proof.
  intros tot v H. induction H as [|d t v tot L F IH]; intros p q k fuel Lp Lq Fu;
    destruct fuel as [|fuel]; simpl in Fu; try lia; cbn [cart_bump]; rewrite app_length; cbn [List.length].
  - rewrite (proj2 (Nat.leb_le _ _)) by lia.
    exists [], false. split; auto. split; [constructor|]. split; [discriminate|]. auto.
  - rewrite (proj2 (Nat.leb_gt _ _)) by lia.
    replace (nth_error (q ++ d :: v) k) with (Some d) by (rewrite Lq; symmetry; apply nth_error_app_len).
    replace (nth_error (p ++ t :: tot) k) with (Some t) by (rewrite Lp; symmetry; apply nth_error_app_len).
    destruct (d + 1 <? t) eqn:E.
    + apply Nat.ltb_lt in E. exists (d + 1 :: v), true. split.
      * rewrite Lq. rewrite lset_app_len. auto.
      * split; [constructor; auto|]. split; [simpl; intros; lia|discriminate].
    + apply Nat.ltb_ge in E.
      destruct (IH (p ++ [t]) (q ++ [0]) (k + 1) fuel) as (v' & h & B & R & T1 & F1);
        [rewrite app_length; simpl; lia|rewrite app_length; simpl; lia|lia|].
      replace ((p ++ [t]) ++ tot) with (p ++ t :: tot) in B by (rewrite <- app_assoc; auto).
      replace ((q ++ [0]) ++ v) with (q ++ 0 :: v) in B by (rewrite <- app_assoc; auto).
      exists (0 :: v'), h. split; [|split; [|split]].
      * replace (lset k 0 (q ++ d :: v)) with (q ++ 0 :: v) by (rewrite Lq; symmetry; apply lset_app_len).
        rewrite B. rewrite <- app_assoc. auto.
      * constructor; auto. lia.
      * intros Ht. simpl. rewrite T1 by auto. nia.
      * intros Hf. simpl. unfold prod in *. simpl. rewrite <- F1 by auto. nia.
Qed.

Lemma cart_iter_spec : forall total n v fuel, in_range total v ->
  code total v + n = prod total -> 0 < n -> n <= fuel ->
  exists l, cart_iter fuel total v true = Some l /\
    map (code total) l = seq (code total v) n /\ Forall (in_range total) l.
Proof.
  intros total. induction n as [|n IH]; intros v fuel R C P Fu; [lia|].
  destruct fuel as [|fuel]; [lia|]. cbn [cart_iter].
  destruct (cart_bump_spec R [] [] (fuel:=S (List.length v)) eq_refl eq_refl) as (v' & h & B & R' & T & F);
    [lia|]. simpl app in B. change (Datatypes.length (@nil nat)) with 0 in B. rewrite B. destruct h.
  - assert (0 < n). { pose proof (code_lt R'). rewrite T in *; auto. lia. }
    destruct (IH v' fuel R') as (l & El & M & Fl); [rewrite T; auto; lia|auto|lia|].
    exists (v :: l). rewrite El. split; auto. split; [|constructor; auto].
    simpl. rewrite M, T by auto. auto.
  - assert (n = 0) by (specialize (F eq_refl); lia). subst n. exists [v].
    destruct fuel; simpl; (split; [auto|split; [auto|repeat constructor; auto]]).
Qed.

(** Every combination appears exactly once: the result has no duplicates, and
    its members are exactly the index vectors within the given sizes. *)
Theorem C36_cartesian : forall sizes fuel, prod sizes <= fuel ->
  exists l, cartesian fuel sizes = Some l /\ NoDup l /\ List.length l = prod sizes /\
    forall v, In v l <-> Forall2 lt v sizes.
Proof.
  intros sizes fuel Fu. unfold cartesian. destruct (forallb (fun s => 0 <? s) sizes) eqn:E.
  - rewrite forallb_forall in E.
    assert (Z : in_range sizes (repeat 0 (List.length sizes)) /\
                code sizes (repeat 0 (List.length sizes)) = 0 /\ 0 < prod sizes).
    { clear Fu. induction sizes as [|s sizes IH]; simpl.
      - repeat split; [constructor|lia].
      - destruct IH as (A & B & C); [intros; apply E; right; auto|].
        assert (0 < s) by (apply Nat.ltb_lt; apply E; left; auto).
        split; [constructor; auto|]. rewrite B. split; [lia|]. unfold prod in *. simpl. nia. }
    destruct Z as (R & C & P).
    destruct (@cart_iter_spec sizes (prod sizes) _ fuel R) as (l & El & M & Fl); [lia|auto|auto|].
    rewrite C in M. exists l. split; auto. split; [|split].
    + apply (NoDup_map_inv (code sizes)). rewrite M. apply seq_NoDup.
    + rewrite <- (map_length (code sizes)), M. apply seq_length.
    + intros v. split; intros I.
      * rewrite Forall_forall in Fl. apply Fl; auto.
      * assert (J : In (code sizes v) (map (code sizes) l)).
        { rewrite M. apply in_seq. pose proof (code_lt I). lia. }
        apply in_map_iff in J as (w & Ew & J). rewrite Forall_forall in Fl.
        rewrite (@code_inj sizes v w); auto.
  - assert (Z : exists s, In s sizes /\ s = 0).
    { destruct (existsb (fun s => s =? 0) sizes) eqn:X.
      - apply existsb_exists in X as (s & I & S0). apply Nat.eqb_eq in S0. eauto.
      - exfalso. rewrite <- not_true_iff_false in E. apply E. apply forallb_forall. intros s I.
        destruct s; auto. rewrite <- not_true_iff_false in X. exfalso; apply X.
        apply existsb_exists. exists 0; auto. }
    destruct Z as (s & I & ->). exists [].
    assert (prod sizes = 0).
    { clear -I. induction sizes; simpl in *; [tauto|]. unfold prod in *; simpl.
      destruct I as [->|I]; auto. rewrite IHsizes; auto. }
    split; [destruct fuel; auto|]. split; [constructor|]. split; [auto|].
    intros v. split; [intros []|]. intros F.
    exfalso. clear -F I. induction F; simpl in I; [tauto|]. destruct I as [->|I]; auto. lia.
Qed.
Print Assumptions C36_cartesian.

Example C36_example : cartesian 6 [2; 3] = Some [[0;0];[1;0];[0;1];[1;1];[0;2];[1;2]] /\
  cartesian 0 [2; 0] = Some [] /\ cartesian 1 [] = Some [[]].
Proof. repeat split. Qed.

(** ** C37 *)
Section Retain.
  Variables (T S : Type) (f : S -> nat -> T -> S * bool).
  (** The specification: run the predicate over the original elements in
      order, once each, keeping those for which it answers true. *)
  Fixpoint kept (i : nat) (v : list T) (s : S) : list T * S :=
    match v with
    | [] => ([], s)
    | x :: r => let (s', b) := f s i x in
                let (k, s'') := kept (i + 1) r s' in
                (if b then x :: k else k, s'')
    end.

  Lemma retain_loop_spec : forall rest keptv junk i s,
    i = List.length keptv + List.length junk ->
    exists tail, retain_loop f (List.length rest) i (List.length junk) (keptv ++ junk ++ rest) s =
      Some (keptv ++ fst (kept i rest s) ++ tail,
            List.length junk + (List.length rest - List.length (fst (kept i rest s))),
            snd (kept i rest s)) /\
      List.length tail = List.length junk + (List.length rest - List.length (fst (kept i rest s))) /\
      List.length (fst (kept i rest s)) <= List.length rest.
  Proof.
    induction rest as [|x rest IH]; intros kv junk i s Ei.
    - simpl. exists junk. rewrite app_nil_r, Nat.add_0_r. auto.
    - cbn [retain_loop List.length]. rewrite app_assoc.
      replace (nth_error ((kv ++ junk) ++ x :: rest) i) with (Some x)
        by (rewrite Ei, <- app_length; symmetry; apply nth_error_app_len).
      cbn [kept]. destruct (f s i x) as [s' b] eqn:E. destruct (kept (i + 1) rest s') as [k s''] eqn:K.
      destruct b; simpl negb; cbn [fst snd].
      + destruct junk as [|j junk]; simpl Nat.ltb.
        * rewrite app_nil_r. simpl in Ei. rewrite Nat.add_0_r in Ei.
          destruct (IH (kv ++ [x]) [] (i + 1) s') as (tl & R & Lt & Lk);
            [rewrite app_length; simpl; lia|].
          rewrite K in R, Lt, Lk. simpl in R, Lt, Lk. rewrite <- app_assoc in R. simpl in R.
          exists tl. split; [|simpl; lia]. simpl. rewrite R. rewrite <- app_assoc. auto.
        * unfold swap.
          replace (i <? List.length ((kv ++ j :: junk) ++ x :: rest)) with true
            by (symmetry; apply Nat.ltb_lt; rewrite !app_length; simpl in *; lia).
          cbn [andb List.length]. rewrite <- app_assoc. simpl app.
          replace (lswap (i - Datatypes.S (List.length junk)) i (kv ++ j :: junk ++ x :: rest))
            with (kv ++ x :: junk ++ j :: rest)
            by (rewrite <- (lswap_mid kv junk rest j x); f_equal; simpl in Ei; lia).
          destruct (IH (kv ++ [x]) (junk ++ [j]) (i + 1) s') as (tl & R & Lt & Lk);
            [rewrite !app_length in *; simpl in *; lia|].
          rewrite K in R, Lt, Lk. cbn [fst snd] in *.
          exists tl. rewrite !app_length in R, Lt. simpl in R, Lt. rewrite <- !app_assoc in R. simpl in R.
          replace (List.length junk + 1) with (Datatypes.S (List.length junk)) in R, Lt by lia.
          split; [|simpl; lia].
          change (0 <? Datatypes.S (List.length junk)) with true. cbv iota.
          rewrite (proj2 (Nat.ltb_lt (i - Datatypes.S (List.length junk)) _))
            by (rewrite !app_length; simpl in *; rewrite ?app_length; simpl; lia).
          cbn [andb]. rewrite R. do 2 f_equal; simpl; auto.
      + destruct (IH kv (junk ++ [x]) (i + 1) s') as (tl & R & Lt & Lk);
          [rewrite app_length; simpl; lia|].
        rewrite K in R, Lt, Lk. cbn [fst snd] in *.
        rewrite app_length in R, Lt. cbn [List.length] in R, Lt.
        exists tl. rewrite <- !app_assoc in R |- *. simpl app in R.
        rewrite R. split; [|lia]. do 3 f_equal. lia.
  Qed.

  (** Filtering never fails, calls the predicate once per original element in
      index order, and leaves exactly the elements it accepted, in order. *)
  Theorem C37_retain : forall v s,
    retain_with_index f v s = Some (fst (kept 0 v s), snd (kept 0 v s)).
  Proof.
    intros v s. unfold retain_with_index.
    destruct (@retain_loop_spec v [] [] 0 s eq_refl) as (tl & R & Lt & Lk).
    simpl in R. rewrite R. f_equal. f_equal.
    destruct (List.length v - List.length (fst (kept 0 v s))) as [|d] eqn:D; simpl Nat.ltb; cbv iota.
    - simpl in Lt. destruct tl; [apply app_nil_r|discriminate].
    - replace (List.length v - Datatypes.S d) with (List.length (fst (kept 0 v s)) + 0) by lia.
      rewrite firstn_app_2. apply app_nil_r.
  Qed.
End Retain.
Print Assumptions C37_retain.

(** For a predicate without state: a plain filter of the indexed elements. *)
Theorem C37_stateless : forall T (p : nat -> T -> bool) (v : list T),
  retain_with_index (fun (_ : unit) i x => (tt, p i x)) v tt =
  Some (map snd (filter (fun ix => p (fst ix) (snd ix)) (combine (seq 0 (List.length v)) v)), tt).
Proof.
  intros. rewrite C37_retain. f_equal.
  assert (G : forall v i, kept (fun (_ : unit) i x => (tt, p i x)) i v tt =
     (map snd (filter (fun ix => p (fst ix) (snd ix)) (combine (seq i (List.length v)) v)), tt)).
  { clear. induction v as [|x v IH]; intros i; simpl; auto. rewrite Nat.add_1_r, IH.
    destruct (p i x); auto. }
  rewrite G. auto.
Qed.
Print Assumptions C37_stateless.

Example C37_example :
  retain_with_index (fun (_ : unit) i x => (tt, orb (Nat.eqb i 0) (Nat.leb x 2))) [5; 1; 4; 2; 3; 0] tt
  = Some ([5; 1; 2; 0], tt).
Proof. reflexivity. Qed.
