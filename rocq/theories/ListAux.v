(** List utilities shared by the models. *)
From Coq Require Import List Arith Lia Bool.
Import ListNotations.
Set Implicit Arguments.

(** [v[i] = x] *)
Fixpoint lset {A} (i : nat) (x : A) (l : list A) : list A :=
  match l, i with
  | [], _ => []
  | _ :: r, 0 => x :: r
  | a :: r, S j => a :: lset j x r
  end.

(** [v.swap(i, j)]; out of range panics in Rust, here the list is unchanged. *)
Definition lswap {A} (i j : nat) (l : list A) : list A :=
  match nth_error l i, nth_error l j with
  | Some x, Some y => lset j x (lset i y l)
  | _, _ => l
  end.

(** [v.insert(i, x)]; an index past the end panics in Rust, here it appends. *)
Fixpoint linsert {A} (i : nat) (x : A) (l : list A) : list A :=
  match i, l with
  | 0, _ => x :: l
  | S _, [] => [x]
  | S j, a :: r => a :: linsert j x r
  end.

(** Length of the longest prefix satisfying [p]. *)
Fixpoint prefix_len {A} (p : A -> bool) (l : list A) : nat :=
  match l with
  | [] => 0
  | x :: r => if p x then S (prefix_len p r) else 0
  end.

(** Split off the last element ([Vec::pop]). *)
Fixpoint lpop {A} (l : list A) : option (list A * A) :=
  match l with
  | [] => None
  | x :: r => match lpop r with
              | None => Some ([], x)
              | Some (i, y) => Some (x :: i, y)
              end
  end.

Lemma lset_length : forall A i (x : A) l, length (lset i x l) = length l.
Proof. induction i; destruct l; simpl; auto. Qed.

Lemma lset_app_r : forall A (l m : list A) i x,
  lset (length l + i) x (l ++ m) = l ++ lset i x m.
Proof. induction l; simpl; intros; auto. f_equal; auto. Qed.

Lemma nth_error_app_len : forall A (l : list A) x m, nth_error (l ++ x :: m) (length l) = Some x.
Proof. induction l; simpl; auto. Qed.

Lemma lset_app_len : forall A (l : list A) x y m, lset (length l) y (l ++ x :: m) = l ++ y :: m.
Proof. induction l; simpl; intros; auto. f_equal; auto. Qed.

Lemma lset_app_l : forall A (l m : list A) i x, i < length l ->
  lset i x (l ++ m) = lset i x l ++ m.
Proof.
  induction l; simpl; intros; [lia|]. destruct i; simpl; auto. f_equal; apply IHl; lia.
Qed.

Lemma nth_error_lset : forall A i j (x : A) l,
  nth_error (lset i x l) j =
  if Nat.eqb i j then (match nth_error l j with Some _ => Some x | None => None end) else nth_error l j.
Proof.
  induction i; destruct l; simpl; intros; destruct j; simpl; auto.
  destruct (Nat.eqb i j); auto.
Qed.

Lemma lswap_mid : forall A (l m n : list A) x y,
  lswap (length l) (length l + S (length m)) (l ++ x :: m ++ y :: n) = l ++ y :: m ++ x :: n.
Proof.
  intros. unfold lswap. rewrite nth_error_app_len.
  rewrite nth_error_app2 by lia. replace (length l + S (length m) - length l) with (S (length m)) by lia.
  simpl. rewrite nth_error_app_len. rewrite lset_app_len.
  rewrite lset_app_r. simpl. rewrite lset_app_len. auto.
Qed.

Lemma prefix_len_le : forall A p (l : list A), prefix_len p l <= length l.
Proof. induction l; simpl; auto. destruct (p a); lia. Qed.

Lemma lpop_None : forall A (l : list A), lpop l = None <-> l = [].
Proof.
  destruct l; simpl; split; try congruence.
  destruct (lpop l) as [[? ?]|]; congruence.
Qed.

Lemma lpop_Some : forall A (l : list A) i x, lpop l = Some (i, x) <-> l = i ++ [x].
Proof.
  induction l; simpl; intros.
  - split; [congruence|]. destruct i; discriminate.
  - destruct (lpop l) as [[j y]|] eqn:E.
    + assert (l = j ++ [y]) by (apply IHl; auto). subst. split; intros H.
      * injection H as <- <-. auto.
      * destruct i; simpl in H; [destruct j; discriminate|].
        injection H as -> H. apply app_inj_tail in H as [-> ->]. auto.
    + apply lpop_None in E; subst. split; intros H.
      * injection H as <- <-. auto.
      * destruct i; simpl in H; [congruence|]. destruct i; discriminate.
Qed.

Lemma linsert_In : forall A i (x : A) l y, In y (linsert i x l) <-> y = x \/ In y l.
Proof.
  induction i; destruct l; simpl; intros; try (intuition congruence).
  rewrite IHi. intuition congruence.
Qed.

Lemma linsert_app : forall A i (x : A) l, linsert i x l = firstn i l ++ x :: skipn i l.
Proof. induction i; destruct l; simpl; auto. f_equal; auto. Qed.

Lemma prefix_len_firstn : forall A p (l : list A) i,
  i <= prefix_len p l -> forallb p (firstn i l) = true.
Proof.
  induction l; simpl; intros; destruct i; simpl; auto.
  destruct (p a); simpl; [apply IHl|]; lia.
Qed.
