(** Property theorems C01, C02, C03, C45. *)
From Coq Require Import List Arith Bool ZArith Lia Sorting.Sorted.
From Verif Require Import Order Value Prov ListAux SortedCol GallopFacts SortedColFacts ProvInst.
Import ListNotations.
Set Implicit Arguments.

(** * C01 *)
Theorem C01_from_vec : forall (P : Prov) (v : list (elem P)),
  ssorted (from_vec v) /\
  (forall t, (exists g, In (t, g) (from_vec v)) <-> (exists g, In (t, g) v)) /\
  (forall t g, In (t, g) (from_vec v) -> sum_tags P (tags_of t v) = Some g).
Proof.
  intros P v. pose proof (from_vec_ssorted v) as S. split; [exact S|].
  assert (L : forall t g, In (t, g) (from_vec v) <-> sum_tags P (tags_of t v) = Some g).
  { intros t g. rewrite <- from_vec_lookup. apply ssorted_lookup_In; auto. }
  split.
  - intros t. split; intros (g & H).
    + apply L in H. destruct (tags_of t v) as [|h r] eqn:E; [discriminate|].
      exists h. apply tags_of_In. rewrite E. left; auto.
    + apply tags_of_In in H. destruct (tags_of t v) as [|h r] eqn:E; [destruct H|].
      eexists. apply L. rewrite E. reflexivity.
  - intros t g H. apply L; auto.
Qed.
Print Assumptions C01_from_vec.

Definition tz (z : Z) : tuple := TTup [TVal (I32 z)].
Example C01_example :
  from_vec (P:=nat_prov) [(tz 3, 1); (tz 1, 2); (tz 3, 4); (tz 2, 7); (tz 1, 5); (tz 3, 10)]
  = [(tz 1, 7); (tz 2, 7); (tz 3, 15)].
Proof. vm_compute. reflexivity. Qed.

(** * C02 *)
(** The order of the two tags in a sum follows the collection that starts with the
    lower tuple; with a commutative sum it is immaterial. *)
Theorem C02_merge : forall (P : Prov) (a b : list (elem P)),
  ssorted a -> ssorted b ->
  ssorted (merge a b) /\
  forall t g, In (t, g) (merge a b) <->
    (In (t, g) a /\ (forall h, ~ In (t, h) b)) \/
    (In (t, g) b /\ (forall h, ~ In (t, h) a)) \/
    (exists x y, In (t, x) a /\ In (t, y) b /\
       g = if swapped a b then padd P y x else padd P x y).
Proof.
  intros P a b Sa Sb. destruct (merge_spec Sa Sb) as [S L]. split; auto.
  intros t g. rewrite (ssorted_lookup_In t g S), L, !(fun t g => ssorted_lookup_In t g Sa), !(fun t g => ssorted_lookup_In t g Sb).
  assert (NA : lookup t a = None <-> forall h, ~ In (t, h) a) by apply lookup_None.
  assert (NB : lookup t b = None <-> forall h, ~ In (t, h) b) by apply lookup_None.
  rewrite <- NA, <- NB.
  assert (X : (exists x y, In (t, x) a /\ In (t, y) b /\
       g = if swapped a b then padd P y x else padd P x y) <->
     exists x y, lookup t a = Some x /\ lookup t b = Some y /\
       g = if swapped a b then padd P y x else padd P x y).
  { split; intros (x & y & H1 & H2 & H3); exists x, y;
      rewrite (ssorted_lookup_In t x Sa), (ssorted_lookup_In t y Sb) in *; auto. }
  rewrite X. clear X NA NB.
  destruct (lookup t a) as [x|], (lookup t b) as [y|], (swapped a b); simpl;
    (split; [intros H; injection H as <- || discriminate H|]); eauto 8;
    intros [[H1 H2]|[[H1 H2]|(x' & y' & H1 & H2 & H3)]]; congruence.
Qed.
Print Assumptions C02_merge.

Corollary C02_merge_comm : forall (P : Prov) (a b : list (elem P)),
  (forall x y, padd P x y = padd P y x) ->
  ssorted a -> ssorted b ->
  forall t g, In (t, g) (merge a b) <->
    (In (t, g) a /\ (forall h, ~ In (t, h) b)) \/
    (In (t, g) b /\ (forall h, ~ In (t, h) a)) \/
    (exists x y, In (t, x) a /\ In (t, y) b /\ g = padd P x y).
Proof.
  intros P a b C Sa Sb t g. rewrite (proj2 (C02_merge Sa Sb)).
  destruct (swapped a b); [|tauto].
  assert (E : (exists x y, In (t, x) a /\ In (t, y) b /\ g = padd P y x) <->
              (exists x y, In (t, x) a /\ In (t, y) b /\ g = padd P x y)).
  { split; intros (x & y & H1 & H2 & H3); exists x, y; rewrite C; auto. }
  rewrite E. tauto.
Qed.
Print Assumptions C02_merge_comm.

Example C02_example :
  let a := [(tz 2, 1); (tz 4, 2); (tz 9, 1)] in
  let b := [(tz 1, 3); (tz 4, 5)] in
  ssorted (P:=nat_prov) a /\ ssorted (P:=nat_prov) b /\
  merge (P:=nat_prov) a b = [(tz 1, 3); (tz 2, 1); (tz 4, 7); (tz 9, 1)].
Proof.
  repeat split; try (repeat constructor; fail).
Qed.

(** * C03 *)
(** Specification of a partition-point search from [b]. *)
Definition first_fail {A} (p : A -> bool) (s : list A) (b n : nat) : Prop :=
  b <= n /\
  (forall i, b <= i < n -> exists x, nth_error s i = Some x /\ p x = true) /\
  (forall x, nth_error s n = Some x -> p x = false).

(** The precise domain on which the search is right: the predicate holds at the
    start position, or nowhere (in particular whenever [b = 0]). *)
Theorem C03_gallop : forall A (p : A -> bool) (s : list A) (b : nat),
  monotone p s ->
  (b = 0 \/ (exists x, nth_error s b = Some x /\ p x = true) \/ (forall x, In x s -> p x = false)) ->
  first_fail p s b (gallop_index s b p).
Proof.
  intros A p s b M H. rewrite (gallop_index_exact M).
  assert (D : (if 0 <? prefix_len p s then Nat.max (S b) (prefix_len p s) else b) = Nat.max b (prefix_len p s)
              /\ (b <= prefix_len p s \/ prefix_len p s = 0)).
  { destruct (0 <? prefix_len p s) eqn:E.
    - apply Nat.ltb_lt in E. destruct H as [->|[(x & H1 & H2)|H]].
      + lia.
      + assert (b < prefix_len p s) by (apply (monotone_at M b H1); auto). lia.
      + exfalso. apply (at_lt M) in E as (x & E1 & E2). rewrite H in E2; [discriminate|].
        eapply nth_error_In; eauto.
    - apply Nat.ltb_ge in E. lia. }
  destruct D as [-> D]. repeat split.
  - lia.
  - intros i Hi. apply (at_lt M). lia.
  - intros x Hx. pose proof (@at_ge _ p s M (Nat.max b (prefix_len p s))) as G.
    rewrite Hx in G. apply G. lia.
Qed.
Print Assumptions C03_gallop.

Theorem C03_gallop_from_start : forall A (p : A -> bool) (s : list A),
  monotone p s -> first_fail p s 0 (gallop_index s 0 p).
Proof. intros; apply C03_gallop; auto. Qed.
Print Assumptions C03_gallop_from_start.

(** The incremental search used by joins moves to the partition point. *)
Theorem C03_search_ahead : forall A (p : A -> bool) (s : list A) (id : nat),
  monotone p s -> 0 < id ->
  match search_ahead s id p with
  | Some n => id <= n /\ first_fail p s (id - 1) n
  | None => first_fail p s (id - 1) (id - 1)
  end.
Proof.
  intros A p s id M H. rewrite (search_ahead_exact M H).
  destruct (id <=? prefix_len p s) eqn:E.
  - apply Nat.leb_le in E. split; [lia|]. repeat split.
    + lia.
    + intros i Hi. apply (at_lt M). lia.
    + intros x Hx. pose proof (@at_ge _ p s M (prefix_len p s)) as G. rewrite Hx in G. apply G; lia.
  - apply Nat.leb_gt in E. repeat split.
    + lia.
    + intros i Hi; lia.
    + intros x Hx. pose proof (@at_ge _ p s M (id - 1)) as G. rewrite Hx in G. apply G; lia.
Qed.
Print Assumptions C03_search_ahead.

(** The full statement (every start position) fails: at a start position past
    the boundary the search steps over an element. *)
Theorem C03_gallop_refuted : exists (p : nat -> bool) (s : list nat) (b : nat),
  monotone p s /\ b < length s /\ ~ first_fail p s b (gallop_index s b p).
Proof.
  exists (fun x => x <? 5), [1; 5; 6], 1. split; [|split].
  - intros i j x y L X Y H.
    destruct i as [|[|[|i]]]; simpl in X; try (injection X as <-; auto); try (destruct i; discriminate);
    destruct j as [|[|[|j]]]; simpl in Y; try (injection Y as <-; discriminate); try lia; destruct j; discriminate.
  - simpl; lia.
  - intros (_ & H & _). replace (gallop_index [1; 5; 6] 1 (fun x => x <? 5)) with 2 in H by (vm_compute; auto).
    destruct (H 1) as (x & H1 & H2); [lia|]. injection H1 as <-. discriminate.
Qed.
Print Assumptions C03_gallop_refuted.

Example C03_example :
  monotone (fun x => x <? 12) [1; 3; 5; 7; 9; 11; 13; 15] /\
  gallop_index [1; 3; 5; 7; 9; 11; 13; 15] 0 (fun x => x <? 12) = 6 /\
  search_ahead [1; 3; 5; 7; 9; 11; 13; 15] 2 (fun x => x <? 12) = Some 6.
Proof.
  split; [|split; vm_compute; auto].
  eapply prefix_len_sorted_monotone with (lt := lt).
  - repeat (constructor; [|repeat constructor; lia]); repeat constructor.
  - intros x y L H. apply Nat.ltb_lt in H. apply Nat.ltb_lt. lia.
Qed.

(** * C45 *)
Theorem C45_tuple_order :
  (forall a b, tcmp a b = Eq <-> a = b) /\
  (forall a b, tcmp b a = CompOpp (tcmp a b)) /\
  (forall a b c, tcmp a b = Lt -> tcmp b c = Lt -> tcmp a c = Lt).
Proof. destruct tcmp_TOrder; auto. Qed.
Print Assumptions C45_tuple_order.

(** With NaN ([None]) the comparison used for sorting is not transitive. *)
Definition nan_pcmp (a b : option Z) : option comparison :=
  match a, b with Some x, Some y => Some (Z.compare x y) | _, _ => None end.
Theorem C45_nan_refuted : exists a b c : gtuple (option Z),
  gtuple_cmp nan_pcmp a b = Eq /\ gtuple_cmp nan_pcmp b c = Eq /\ gtuple_cmp nan_pcmp a c <> Eq.
Proof.
  exists (TTup [TVal (F64 (Some 1%Z))]), (TTup [TVal (F64 None)]), (TTup [TVal (F64 (Some 2%Z))]).
  repeat split; discriminate.
Qed.
Print Assumptions C45_nan_refuted.

Example C45_example :
  tcmp (TTup [TVal (I32 1); TTup [TVal (VBool false)]]) (TTup [TVal (I32 1); TTup [TVal (VBool true)]]) = Lt /\
  tcmp (TVal (U8 9)) (TTup []) = Lt /\ tcmp (TVal (I64 5)) (TVal (I32 100)) = Gt.
Proof. repeat split. Qed.
