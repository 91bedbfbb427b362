(** C92: declared types stand for base types, declared relations have the declared types, and algebraic data types
    become relations. *)
From Coq Require Import List ZArith Bool String Lia Permutation.
From Verif Require Import TypeSet PropsTypeSet TypeDecls.
Import ListNotations.
Set Implicit Arguments.
Local Open Scope string_scope.
Local Open Scope list_scope.

(** ** Specification *)
Definition type_decls (l : list titem) : list (string * tyname) :=
  flat_map (fun i => match i with DAlias n t => [(n, t)] | DEnum n _ => [(n, TBase TUSize)] | DAdt n _ => [(n, TBase TEntity)] | _ => [] end) l.
(** a name stands for the base type at the end of the chain of declarations *)
Inductive means (ds : list (string * tyname)) : tyname -> vtype -> Prop :=
| MBase : forall t, means ds (TBase t) t
| MNamed : forall n ty t, In (n, ty) ds -> means ds ty t -> means ds (TNamed n) t.
(** the relation of a constructor *)
Definition adt_rel (c : string) : string := ("adt#" ++ c)%string.
(** the relations that are declared, also those of constructors *)
Definition rel_decls (l : list titem) : list (string * list tyname) :=
  flat_map (fun i => match i with
                     | DRel false _ rs => rs
                     | DAdt n vs => map (fun v => (adt_rel (fst v), TNamed n :: snd v)) vs
                     | _ => []
                     end) l.
Definition ext_decls (l : list titem) : list (string * list tyname) := flat_map (fun i => match i with DRel true _ rs => rs | _ => [] end) l.
Definition fact_of (l : list titem) (p : string) (t : list cst) : Prop := In (DFact p t) l \/ exists ts, In (DSet p ts) l /\ In t ts.
(** declarations and facts of a relation have the same number of arguments *)
Definition about (l : list titem) (p : string) (n : nat) : Prop :=
  (exists tys, In (p, tys) (rel_decls l) /\ List.length tys = n) \/ exists t, fact_of l p t /\ List.length t = n.
Definition one_arity (l : list titem) (p : string) : Prop := forall n m, about l p n -> about l p m -> n = m.
(** a constant can have a type *)
Definition can_have (ds : list (string * tyname)) (c : cst) (t : vtype) : Prop :=
  match c with CLit s => ts_contains s t = true | CTyped ty => means ds ty t end.
(** (type, constructor, arguments) *)
Definition variants (l : list titem) : list (string * (string * list tyname)) :=
  flat_map (fun i => match i with DAdt n vs => map (fun v => (fst v, (n, snd v))) vs | _ => [] end) l.
Definition no_ann (l : list titem) : Prop := forall e a rs, In (DRel e (Some a) rs) l -> False.

(** ** Lists *)
Lemma tlook_set : forall A (l : list (string * A)) k a j, tlook (tset_at l k a) j = if String.eqb k j then Some a else tlook l j.
Proof.
  induction l as [|[i b] l IH]; intros k a j; simpl; auto. destruct (String.eqb_spec i k) as [->|N]; simpl.
  - destruct (String.eqb k j); auto.
  - rewrite IH. destruct (String.eqb_spec i j) as [->|N2]; auto. destruct (String.eqb_spec k j); [congruence|auto].
Qed.
Lemma all_some_map : forall A B (f : A -> option B) l r, all_some (map f l) = Some r <-> Forall2 (fun a b => f a = Some b) l r.
Proof.
  induction l as [|a l IH]; intros r; simpl.
  - split; [intros E; inversion E; constructor|]. intros F. inversion F. auto.
  - destruct (f a) as [b|] eqn:E.
    + destruct (all_some (map f l)) as [r'|] eqn:E2.
      * split; [intros X; inversion X; subst; constructor; auto; apply IH; auto|]. intros F. inversion F as [|? ? ? ? F1 F2]; subst.
        apply IH in F2. inversion F2. congruence.
      * split; [discriminate|]. intros F. inversion F as [|? ? ? ? F1 F2]; subst. apply IH in F2. discriminate.
    + split; [discriminate|]. intros F. inversion F. congruence.
Qed.
Lemma F2_len : forall A B (R : A -> B -> Prop) l m, Forall2 R l m -> List.length l = List.length m.
Proof. induction 1; simpl; auto. Qed.
Lemma F2_impl : forall A B (R S : A -> B -> Prop) l m, (forall a b, R a b -> S a b) -> Forall2 R l m -> Forall2 S l m.
Proof. induction 2; constructor; auto. Qed.
Lemma unify_base_l : forall t s u, ts_unify (SBase t) s = Some u -> u = SBase t.
Proof.
  intros t s u. unfold ts_unify. destruct s as [t2| | | | | | | |]; simpl; try discriminate; try (intros E; inversion E; auto; fail);
    try (match goal with |- context [if ?c then _ else _] => destruct c; [|discriminate]; intros E; inversion E; auto end).
Qed.
Lemma unify_base_r : forall t s u, ts_unify s (SBase t) = Some u -> u = SBase t.
Proof.
  intros t s u. unfold ts_unify. destruct s as [t2| | | | | | | |]; simpl; try discriminate; try (intros E; inversion E; auto; fail);
    try (match goal with |- context [if ?c then _ else _] => destruct c eqn:C; [|discriminate]; intros E; inversion E; auto end).
  unfold vt_eqb in C. destruct (vtype_eq_dec t2 t); [congruence|discriminate].
Qed.
Lemma zip_base_l : forall ts l r, List.length ts = List.length l -> zip_unify (map SBase ts) l = Some r -> r = map SBase ts.
Proof.
  induction ts as [|t ts IH]; destruct l as [|s l]; simpl; intros r L E; try discriminate; [inversion E; auto|].
  destruct (ts_unify (SBase t) s) as [u|] eqn:U; [|discriminate]. apply unify_base_l in U as ->.
  destruct (zip_unify (map SBase ts) l) as [r'|] eqn:Z; [|discriminate]. inversion E; subst. f_equal. eapply IH; eauto.
Qed.
Lemma zip_base_r : forall ts l r, List.length l = List.length ts -> zip_unify l (map SBase ts) = Some r -> r = map SBase ts.
Proof.
  induction ts as [|t ts IH]; destruct l as [|s l]; simpl; intros r L E; try discriminate; [inversion E; auto|].
  destruct (ts_unify s (SBase t)) as [u|] eqn:U; [|discriminate]. apply unify_base_r in U as ->.
  destruct (zip_unify l (map SBase ts)) as [r'|] eqn:Z; [|discriminate]. inversion E; subst. f_equal. eapply IH; eauto.
Qed.
(** every type of the first set is one of the second *)
Definition narrower (a b : tset) : Prop := forall t, ts_contains a t = true -> ts_contains b t = true.
Lemma zip_narrow : forall a b r, List.length a = List.length b -> zip_unify a b = Some r -> Forall2 narrower r a /\ Forall2 narrower r b.
Proof.
  induction a as [|x a IH]; destruct b as [|y b]; simpl; intros r L E; try discriminate; [inversion E; split; constructor|].
  destruct (ts_unify x y) as [u|] eqn:U; [|discriminate]. destruct (zip_unify a b) as [r'|] eqn:Z; [|discriminate]. inversion E; subst.
  destruct (IH b r') as [I1 I2]; auto. split; constructor; auto; intros t C; rewrite (@unify_contains _ _ _ t U) in C; apply andb_true_iff in C; tauto.
Qed.

(** ** Actions *)
Inductive act := ACustom (n : string) (ty : tyname) | AMember (v : option enum_val) | AAdt (c : string)
| ARel (e : bool) (p : string) (tys : list tyname) | ASet (p : string) (ts : list (list cst)) | AFact (p : string) (t : list cst).
Definition acts_of (i : titem) : option (list act) :=
  match i with
  | DAlias n ty => Some [ACustom n ty]
  | DEnum n vs => Some (ACustom n (TBase TUSize) :: map AMember vs)
  | DAdt _ _ => Some []
  | DRel e None rs => Some (map (fun r => ARel e (fst r) (snd r)) rs)
  | DRel e (Some (mkAnn (Some c) (Some _))) rs => Some (AAdt c :: map (fun r => ARel e (fst r) (snd r)) rs)
  | DRel _ _ _ => None
  | DSet p ts => Some [ASet p ts]
  | DFact p t => Some [AFact p t]
  end.
Definition act_do (fp : string -> option (list vtype)) (st : tstate) (a : act) : tstate :=
  match a with
  | ACustom n ty => add_custom n ty st
  | AMember v => enum_member st v
  | AAdt c => mkT (t_custom st) (t_decl st) (t_inf st) (tset_at (t_adt st) ("adt#" ++ c)%string c) (t_errs st)
  | ARel e p tys => rel_one fp e st (p, tys)
  | ASet p ts => visit_set fp p ts st
  | AFact p t => visit_fact fp p t st
  end.
Lemma visit_acts : forall fp st i, visit fp st i = match acts_of i with Some l => Some (fold_left (act_do fp) l st) | None => None end.
Proof.
  intros fp st i. assert (M : forall e rs st, fold_left (rel_one fp e) rs st = fold_left (act_do fp) (map (fun r => ARel e (fst r) (snd r)) rs) st).
  { induction rs as [|[p tys] rs IH]; intros s; simpl; auto. }
  destruct i as [n ty|n vs|n vs|e a rs|p ts|p t]; simpl; auto.
  - f_equal. generalize (add_custom n (TBase TUSize) st). induction vs as [|v vs IH]; intros s; simpl; auto.
  - destruct a as [[[c|] [fl|]]|]; auto; simpl; rewrite M; auto.
Qed.
Lemma visits_acts : forall fp l st st', visits fp st l = Some st' ->
  exists as_, all_some (map acts_of l) = Some as_ /\ st' = fold_left (act_do fp) (List.concat as_) st.
Proof.
  induction l as [|i l IH]; intros st st' V; simpl in *; [inversion V; exists []; auto|]. rewrite visit_acts in V.
  destruct (acts_of i) as [a|]; [|discriminate]. apply IH in V as (as_ & E & ->). rewrite E. exists (a :: as_). split; auto.
  simpl. rewrite fold_left_app. auto.
Qed.

Definition ca (l : list act) : list (string * tyname) := flat_map (fun a => match a with ACustom n ty => [(n, ty)] | _ => [] end) l.
Definition ra (l : list act) : list (string * list tyname) := flat_map (fun a => match a with ARel false p tys => [(p, tys)] | _ => [] end) l.
Definition fa (l : list act) (p : string) (t : list cst) : Prop := In (AFact p t) l \/ exists ts, In (ASet p ts) l /\ In t ts.
Definition aabout (l : list act) (p : string) (n : nat) : Prop :=
  (exists tys, In (p, tys) (ra l) /\ List.length tys = n) \/ exists t, fa l p t /\ List.length t = n.
Definition aone (l : list act) (p : string) : Prop := forall n m, aabout l p n -> aabout l p m -> n = m.

(** ** Errors only grow *)
Lemma err_grow : forall fp a st, exists es, t_errs (act_do fp st a) = t_errs st ++ es.
Proof.
  intros fp a st. assert (Z : forall s : tstate, exists es, t_errs s = t_errs s ++ es) by (intros s; exists []; rewrite app_nil_r; auto).
  assert (X : forall p fts tys s, exists es, t_errs (ext_check p fts tys s) = t_errs s ++ es).
  { induction fts as [|f fts IH]; destruct tys as [|[t|n] tys]; intros s; simpl; eauto. destruct (vt_eqb f t); eauto. simpl. eauto. }
  destruct a as [n ty|v|c|e p tys|p ts|p t]; simpl; auto.
  - unfold add_custom. destruct (tlook _ n); simpl; eauto. destruct (find_type _ ty); simpl; eauto.
  - destruct v as [[z|]|]; simpl; eauto. destruct (Z.ltb z 0); simpl; eauto.
  - destruct (fp p) as [fts|].
    + destruct e; simpl; eauto. destruct (Nat.eqb _ _); simpl; eauto.
    + destruct e; simpl; eauto. unfold add_rel. destruct (existsb _ _); simpl; eauto. destruct (all_some _); simpl; eauto.
      destruct (tlook (t_inf st) p); simpl; eauto. destruct (zip_unify _ _); simpl; eauto.
  - unfold visit_set. destruct (fp p); simpl; eauto. destruct ts as [|t ts]; eauto. destruct (forallb _ ts); [|simpl; eauto].
    destruct (set_loop _ _ _ _) as [es [l|]]; simpl; eauto.
  - unfold visit_fact. destruct (fp p); simpl; eauto. destruct (contains p && _); simpl; eauto. destruct (all_some _); simpl; eauto.
    destruct (tlook (t_inf st) p); simpl; eauto. destruct (Nat.eqb _ _); simpl; eauto. destruct (zip_unify _ _); simpl; eauto.
Qed.
Lemma err_run : forall fp l st, t_errs (fold_left (act_do fp) l st) = [] -> t_errs st = [].
Proof.
  induction l as [|a l IH]; intros st E; simpl in *; auto. apply IH in E. destruct (err_grow fp a st) as [es X]. rewrite E in X.
  symmetry in X. apply app_eq_nil in X. tauto.
Qed.
Lemma no_snoc : forall A (l : list A) x, l ++ [x] = [] -> False.
Proof. intros A [|y l] x E; discriminate. Qed.

(** ** Steps without errors *)
Lemma custom_ok : forall n ty st, t_errs (add_custom n ty st) = [] -> tlook (t_custom st) n = None /\
  exists t, find_type (t_custom st) ty = Some t /\ add_custom n ty st = mkT ((n, t) :: t_custom st) (t_decl st) (t_inf st) (t_adt st) (t_errs st).
Proof.
  intros n ty st. unfold add_custom. destruct (tlook (t_custom st) n); [intros E; exfalso; eapply no_snoc; exact E|].
  destruct (find_type (t_custom st) ty) as [t|]; [|intros E; exfalso; eapply no_snoc; exact E]. intros _. split; auto. exists t. auto.
Qed.
Lemma member_ok : forall v st, t_errs (enum_member st v) = [] -> enum_member st v = st.
Proof.
  intros [[z|]|] st; simpl; auto; [|intros E; exfalso; eapply no_snoc; exact E].
  destruct (Z.ltb z 0); auto. intros E. exfalso. eapply no_snoc. exact E.
Qed.
Lemma ext_ok : forall p fts tys st, List.length fts = List.length tys -> t_errs (ext_check p fts tys st) = [] -> tys = map TBase fts /\ ext_check p fts tys st = st.
Proof.
  induction fts as [|f fts IH]; destruct tys as [|[t|n] tys]; intros st L; simpl; try discriminate; auto.
  - unfold vt_eqb. destruct (vtype_eq_dec f t) as [->|]; [|intros E; exfalso; eapply no_snoc; exact E]. intros E.
    destruct (IH tys st) as [-> X]; auto.
  - intros E. exfalso. eapply no_snoc. exact E.
Qed.
Lemma tuple_ok : forall cu cs sets es r, List.length cs = List.length sets -> tuple_loop cu sets cs = (es, r) -> es = [] ->
  exists l rs, r = Some l /\ Forall2 (fun c s => resolve cu c = Some s) cs rs /\ zip_unify sets rs = Some l /\ List.length l = List.length sets.
Proof.
  induction cs as [|c cs IH]; destruct sets as [|s sets]; intros es r L; simpl; try discriminate.
  - intros E _. inversion E. exists [], []. auto.
  - destruct (resolve cu c) as [x|] eqn:R.
    2: { destruct (tuple_loop cu sets cs) as [es' r']. intros E1 E2. inversion E1; subst. discriminate. }
    destruct (ts_unify s x) as [u|] eqn:U; [|intros E1 E2; inversion E1; subst; discriminate].
    destruct (tuple_loop cu sets cs) as [es' r'] eqn:T. intros E1 E2. inversion E1; subst.
    destruct (IH sets [] r') as (l & rs & -> & F & Z & Q); auto. exists (u :: l), (x :: rs). split; auto. split; [constructor; auto|].
    simpl. rewrite U, Z. auto.
Qed.
Lemma F2_trans : forall A (R : A -> A -> Prop) a b c, (forall x y z, R x y -> R y z -> R x z) -> Forall2 R a b -> Forall2 R b c -> Forall2 R a c.
Proof. intros A R a b c T H. revert c. induction H; intros c K; inversion K; subst; constructor; eauto. Qed.
Lemma narrow_trans : forall x y z, narrower x y -> narrower y z -> narrower x z.
Proof. intros x y z A B t C. auto. Qed.
Lemma narrow_refl : forall l, Forall2 narrower l l.
Proof. induction l; constructor; auto. intros t; auto. Qed.
Lemma F2_comp : forall A B C (R : A -> B -> Prop) (S : C -> B -> Prop) (T : A -> C -> Prop) l m n,
  (forall a b c, R a b -> S c b -> T a c) -> Forall2 R l m -> Forall2 S n m -> Forall2 T l n.
Proof. intros A B C R S T l m n H F. revert n. induction F; intros n G; inversion G; subst; constructor; eauto. Qed.
Definition fits (cu : list (string * vtype)) (c : cst) (s : tset) : Prop := exists r, resolve cu c = Some r /\ narrower s r.
Lemma set_ok : forall cu p ts sets es r, set_loop cu p sets ts = (es, r) -> es = [] ->
  exists l, r = Some l /\ List.length l = List.length sets /\ Forall2 narrower l sets /\
    (forall t, In t ts -> Forall2 (fits cu) t l) /\ (forall bs, sets = map SBase bs -> l = sets).
Proof.
  induction ts as [|t ts IH]; intros sets es r; simpl.
  - intros E _. inversion E. exists sets. split; auto. split; auto. split; [apply narrow_refl|]. split; [intros t []|auto].
  - destruct (Nat.eqb_spec (List.length t) (List.length sets)) as [L|L].
    2: { destruct (set_loop cu p sets ts) as [es' r']. intros E1 E2. inversion E1; subst. discriminate. }
    destruct (tuple_loop cu sets t) as [es1 r1] eqn:T. intros E1 E2.
    assert (N : es1 = []).
    { destruct r1 as [s1|]; [|inversion E1; subst; auto]. destruct (set_loop cu p s1 ts) as [es2 r2]. inversion E1; subst. apply app_eq_nil in H0. tauto. }
    destruct (tuple_ok _ _ _ L T N) as (l1 & rs & -> & F & Z & Q). subst es1.
    destruct (set_loop cu p l1 ts) as [es2 r2] eqn:S1. inversion E1; subst. destruct (IH _ _ _ S1) as (l & -> & A & B & C & D); auto.
    assert (LR := F2_len F). destruct (@zip_narrow sets rs l1) as [N1 N2]; [lia|auto|].
    exists l. split; auto. split; [congruence|]. split; [eapply F2_trans; [apply narrow_trans|exact B|exact N1]|]. split.
    + intros t' [<-|I]; auto. assert (N3 : Forall2 narrower l rs) by (eapply F2_trans; [apply narrow_trans|exact B|exact N2]).
      eapply F2_comp; [|exact F|exact N3]. intros c b s X Y. exists b. auto.
    + intros bs ->. assert (l1 = map SBase bs) by (eapply zip_base_l; [|exact Z]; rewrite map_length in *; lia). subst l1. apply (D bs). auto.
Qed.

(** ** The invariant *)
Record Inv (fp : string -> option (list vtype)) (tot done : list act) (st : tstate) : Prop := mkInv {
  v_mean : forall n t, tlook (t_custom st) n = Some t -> means (ca tot) (TNamed n) t;
  v_cus : forall n ty, In (n, ty) (ca done) -> exists t, find_type (t_custom st) ty = Some t /\ tlook (t_custom st) n = Some t;
  v_cnd : NoDup (map fst (ca done));
  v_rel : forall p tys, In (p, tys) (ra done) -> fp p = None /\ In p (t_decl st) /\
    exists ts, Forall2 (fun ty t => find_type (t_custom st) ty = Some t) tys ts /\ (aone tot p -> tlook (t_inf st) p = Some (map SBase ts));
  v_rnd : NoDup (map fst (ra done));
  v_len : forall p l, tlook (t_inf st) p = Some l -> aone tot p -> aabout tot p (List.length l);
  v_fit : forall p t, fa done p t -> fp p = None /\ (aone tot p -> exists l, tlook (t_inf st) p = Some l /\ Forall2 (fits (t_custom st)) t l);
  v_ext : forall p tys, In (ARel true p tys) done -> exists fts, fp p = Some fts /\ tys = map TBase fts;
  v_adt1 : forall c, In (AAdt c) done -> tlook (t_adt st) (adt_rel c) = Some c;
  v_adt2 : forall r c, In (r, c) (t_adt st) -> r = adt_rel c /\ In (AAdt c) tot }.

Lemma inf_step : forall fp tot done st st' p l, Inv fp tot done st ->
  t_custom st' = t_custom st -> t_decl st' = t_decl st -> t_adt st' = t_adt st -> t_inf st' = tset_at (t_inf st) p l ->
  (forall old, tlook (t_inf st) p = Some old -> aone tot p -> Forall2 narrower l old /\ forall ts, old = map SBase ts -> l = old) ->
  (aone tot p -> aabout tot p (List.length l)) -> Inv fp tot done st'.
Proof.
  intros fp tot done st st' p l [I1 I2 I3 I4 I5 I6 I7 I8 I9 I10] E1 E2 E3 E4 H L. constructor; rewrite ?E1, ?E2, ?E3; auto.
  - intros q tys I. destruct (I4 q tys I) as (A & B & ts & C & D). split; auto. split; auto. exists ts. split; auto. intros O.
    rewrite E4, tlook_set. destruct (String.eqb_spec p q) as [<-|]; auto. f_equal. destruct (H _ (D O) O) as [_ X]. eauto.
  - intros q l' . rewrite E4, tlook_set. destruct (String.eqb_spec p q) as [<-|]; eauto. intros E. inversion E; subst. auto.
  - intros q t F. destruct (I7 q t F) as [A B]. split; auto. intros O. destruct (B O) as (l0 & C & D). rewrite E4, tlook_set.
    destruct (String.eqb_spec p q) as [<-|]; eauto. exists l. split; auto. destruct (H _ C O) as [N _].
    eapply F2_comp with (S := fun (a b : tset) => narrower a b); [|exact D|]; [|exact N].
    intros c s s' (r & R & X) Y. exists r. split; auto. eapply narrow_trans; eauto.
Qed.
Lemma add_fit : forall fp tot done st a p ts, Inv fp tot done st -> a = ASet p ts \/ (exists t, a = AFact p t /\ ts = [t]) -> 
  (forall t, In t ts -> fp p = None /\ (aone tot p -> exists l, tlook (t_inf st) p = Some l /\ Forall2 (fits (t_custom st)) t l)) ->
  Inv fp tot (a :: done) st.
Proof.
  intros fp tot done st a p ts [I1 I2 I3 I4 I5 I6 I7 I8 I9 I10] A H.
  assert (C : ca (a :: done) = ca done) by (destruct A as [->|(t & -> & _)]; auto).
  assert (R : ra (a :: done) = ra done) by (destruct A as [->|(t & -> & _)]; auto).
  constructor; rewrite ?C, ?R; auto.
  - intros q t F. destruct A as [->|(t0 & -> & ->)].
    + destruct F as [[F|F]|(us & [F|F] & J)]; try discriminate.
      * apply I7. left. auto.
      * inversion F; subst. auto.
      * apply I7. right. eauto.
    + destruct F as [[F|F]|(us & [F|F] & J)]; try discriminate.
      * inversion F; subst. apply H. left. auto.
      * apply I7. left. auto.
      * apply I7. right. eauto.
  - intros q tys [I|I]; auto. destruct A as [->|(t & -> & _)]; discriminate.
  - intros c [I|I]; auto. destruct A as [->|(t & -> & _)]; discriminate.
Qed.
Lemma find_mono : forall cu n t ty u, tlook cu n = None -> find_type cu ty = Some u -> find_type ((n, t) :: cu) ty = Some u.
Proof. intros cu n t [b|m] u N; simpl; auto. destruct (String.eqb_spec n m) as [->|]; auto. congruence. Qed.
Lemma fits_mono : forall cu n t c s, tlook cu n = None -> fits cu c s -> fits ((n, t) :: cu) c s.
Proof.
  intros cu n t [x|ty] s N (r & R & X); exists r; split; auto. cbn [resolve] in *. destruct (find_type cu ty) as [u|] eqn:F; [|discriminate].
  rewrite (@find_mono _ _ t _ _ N F). auto.
Qed.
Lemma fa_skip : forall a l p t, (forall ts, a <> ASet p ts) -> (forall t, a <> AFact p t) -> fa (a :: l) p t -> fa l p t.
Proof. intros a l p t A B [[X|X]|(ts & [X|X] & J)]; [exfalso; eapply B; eauto|left; auto|exfalso; eapply A; eauto|right; eauto]. Qed.

Lemma inv_step : forall fp tot done st a, Inv fp tot done st -> In a tot -> t_errs (act_do fp st a) = [] -> Inv fp tot (a :: done) (act_do fp st a).
Proof.
  intros fp tot done st a H IT E. destruct a as [n ty|v|c|e p tys|p ts|p t]; cbn [act_do] in *.
  - destruct (custom_ok _ _ _ E) as (N & t & F & X). rewrite X. destruct H as [I1 I2 I3 I4 I5 I6 I7 I8 I9 I10].
    assert (MT : means (ca tot) ty t).
    { destruct ty as [b|m]; simpl in F; [inversion F; constructor|]. apply I1. auto. }
    constructor; cbn [t_custom t_decl t_inf t_adt]; auto.
    + intros m u. simpl. destruct (String.eqb_spec n m) as [<-|]; auto. intros Q. inversion Q; subst. econstructor; [|exact MT].
      unfold ca. apply in_flat_map. eexists. split; [exact IT|left; auto].
    + intros m u [Q|Q].
      * inversion Q; subst. exists t. split; [apply find_mono; auto|]. simpl. rewrite String.eqb_refl. auto.
      * destruct (I2 _ _ Q) as (w & A & B). exists w. split; [apply find_mono; auto|]. simpl. destruct (String.eqb_spec n m) as [->|]; [congruence|auto].
    + simpl. constructor; auto. intros J. apply in_map_iff in J as ([m u] & Q & J). simpl in Q. subst. destruct (I2 _ _ J) as (w & _ & B). congruence.
    + intros p tys I. destruct (I4 p tys I) as (A & B & us & C & D). split; auto. split; auto. exists us. split; auto.
      eapply F2_impl; [|exact C]. intros x y. apply find_mono. auto.
    + intros p u J. apply fa_skip in J; try discriminate. destruct (I7 _ _ J) as [A B]. split; auto. intros O. destruct (B O) as (l & C & D).
      exists l. split; auto. eapply F2_impl; [|exact D]. intros x y. apply fits_mono. auto.
    + intros p tys [Q|Q]; [discriminate|auto].
    + intros c [Q|Q]; [discriminate|auto].
  - rewrite member_ok by auto. destruct H as [I1 I2 I3 I4 I5 I6 I7 I8 I9 I10]. constructor; auto.
    + intros p u J. apply fa_skip in J; try discriminate. auto.
    + intros p tys [Q|Q]; [discriminate|auto].
    + intros c [Q|Q]; [discriminate|auto].
  - destruct H as [I1 I2 I3 I4 I5 I6 I7 I8 I9 I10]. constructor; cbn [t_custom t_decl t_inf t_adt]; auto.
    + intros p u J. apply fa_skip in J; try discriminate. auto.
    + intros p tys [Q|Q]; [discriminate|auto].
    + intros d Q. rewrite tlook_set. fold (adt_rel c). destruct (String.eqb_spec (adt_rel c) (adt_rel d)) as [X|X].
      * unfold adt_rel in X. simpl in X. inversion X. auto.
      * destruct Q as [Q|Q]; [inversion Q; subst; tauto|auto].
    + intros r d. assert (G : forall l, (forall r d, In (r, d) l -> r = adt_rel d /\ In (AAdt d) tot) -> In (r, d) (tset_at l (adt_rel c) c) -> r = adt_rel d /\ In (AAdt d) tot).
      { induction l as [|[i b] l IH]; simpl; intros J Q.
        - destruct Q as [Q|[]]. inversion Q; subst. auto.
        - destruct (String.eqb_spec i (adt_rel c)) as [->|]; destruct Q as [Q|Q]; [inversion Q; subst; auto|apply J; auto|apply J; auto|apply IH; auto]. }
      apply G. auto.
  - unfold rel_one in *. destruct (fp p) as [fts|] eqn:FP.
    + destruct e; [|exfalso; eapply no_snoc; exact E]. destruct (Nat.eqb_spec (List.length fts) (List.length tys)) as [L|]; [|exfalso; eapply no_snoc; exact E].
      destruct (ext_ok _ _ _ _ L E) as [X ->]. destruct H as [I1 I2 I3 I4 I5 I6 I7 I8 I9 I10]. constructor; auto.
      * intros q u J. apply fa_skip in J; try discriminate. auto.
      * intros q tys' [Q|Q]; auto. inversion Q; subst. eauto.
      * intros c [Q|Q]; [discriminate|auto].
    + destruct e; [exfalso; eapply no_snoc; exact E|]. unfold add_rel in *.
      destruct (existsb (String.eqb p) (t_decl st)) eqn:EX; [exfalso; eapply no_snoc; exact E|].
      cbn [t_custom t_decl t_inf t_adt t_errs] in *.
      destruct (all_some (map (find_type (t_custom st)) tys)) as [ts|] eqn:AS; [|exfalso; eapply no_snoc; exact E].
      apply all_some_map in AS. assert (LEN := F2_len AS).
      assert (AB : aabout tot p (List.length tys)).
      { left. exists tys. split; auto. unfold ra. apply in_flat_map. eexists. split; [exact IT|left; auto]. }
      set (st1 := mkT (t_custom st) (p :: t_decl st) (t_inf st) (t_adt st) (t_errs st)) in *.
      assert (ND : ~ In p (t_decl st)).
      { intros I. assert (existsb (String.eqb p) (t_decl st) = true) by (apply existsb_exists; exists p; split; auto; apply String.eqb_refl). congruence. }
      assert (H1 : Inv fp tot done st1).
      { destruct H as [I1 I2 I3 I4 I5 I6 I7 I8 I9 I10]. constructor; auto. intros q tys' I. destruct (I4 _ _ I) as (A & B & C). split; auto. split; [right; auto|auto]. }
      assert (FIN : forall l, (aone tot p -> l = map SBase ts) -> (forall old, tlook (t_inf st) p = Some old -> aone tot p -> Forall2 narrower l old /\ forall ts, old = map SBase ts -> l = old) ->
        Inv fp tot (ARel false p tys :: done) (set_inf p l st1)).
      { intros l LE LO. assert (H2 : Inv fp tot done (set_inf p l st1)).
        { apply inf_step with (st := st1) (p := p) (l := l); [exact H1|reflexivity..|exact LO|]. intros O. rewrite (LE O), map_length, <- LEN. auto. }
        assert (NP : ~ In p (map fst (ra done))).
        { intros J. apply in_map_iff in J as ([q u] & Q & J). simpl in Q. subst. destruct H as [_ _ _ I4 _ _ _ _ _ _]. destruct (I4 _ _ J) as (_ & X & _). auto. }
        destruct H2 as [I1 I2 I3 I4 I5 I6 I7 I8 I9 I10]. constructor; auto.
        - intros q tys' [Q|Q]; auto. inversion Q; subst. split; auto. split; [left; auto|]. exists ts. split; auto. intros O. cbn [set_inf t_inf].
          rewrite tlook_set, String.eqb_refl. rewrite (LE O). auto.
        - simpl. constructor; auto.
        - intros q u J. apply fa_skip in J; try discriminate. auto.
        - intros q tys' [Q|Q]; [discriminate|auto].
        - intros c [Q|Q]; [discriminate|auto]. }
      destruct (tlook (t_inf st) p) as [old|] eqn:TL.
      * destruct (zip_unify old (map SBase ts)) as [l|] eqn:Z; [|exfalso; eapply no_snoc; exact E].
        assert (OL : aone tot p -> List.length old = List.length ts).
        { intros O. rewrite <- LEN. apply (O _ _); auto. eapply v_len; eauto. }
        apply FIN.
        -- intros O. eapply zip_base_r; [|exact Z]. auto.
        -- intros old' Q O. inversion Q; subst old'. split.
           ++ apply (@zip_narrow old (map SBase ts) l); auto. rewrite map_length. auto.
           ++ intros us ->. eapply zip_base_l; [|exact Z]. specialize (OL O). rewrite map_length in *. auto.
      * apply FIN; auto. discriminate.
  - unfold visit_set in *. destruct (fp p) eqn:FP; [exfalso; eapply no_snoc; exact E|].
    destruct ts as [|t ts]; [apply add_fit with (p := p) (ts := []); auto; intros t []|].
    destruct (forallb (fun u => Nat.eqb (List.length u) (List.length t)) ts) eqn:FA; [|exfalso; eapply no_snoc; exact E].
    set (start := match tlook (t_inf st) p with Some l => l | None => repeat SAny (List.length t) end) in *.
    destruct (set_loop (t_custom st) p start (t :: ts)) as [es r] eqn:SL.
    assert (EN : es = []).
    { destruct r; cbn [set_inf t_errs] in E; apply app_eq_nil in E; tauto. }
    destruct (set_ok _ _ _ _ SL EN) as (l & -> & L & NA & FT & SB).
    assert (AB : aone tot p -> aabout tot p (List.length l)).
    { intros O. rewrite L. unfold start. destruct (tlook (t_inf st) p) as [old|] eqn:TL; [eapply v_len; eauto|]. rewrite repeat_length.
      right. exists t. split; auto. right. exists (t :: ts). split; [auto|left; auto]. }
    assert (H2 : Inv fp tot done (set_inf p l (mkT (t_custom st) (t_decl st) (t_inf st) (t_adt st) (t_errs st ++ es)))).
    { apply inf_step with (st := st) (p := p) (l := l); [exact H|reflexivity..| |exact AB]. intros old TL _. unfold start in *. rewrite TL in *. split; auto. }
    apply add_fit with (p := p) (ts := t :: ts); auto. intros u J. split; auto. intros _. exists l. cbn [set_inf t_inf t_custom].
    rewrite tlook_set, String.eqb_refl. split; auto.
  - unfold visit_fact in *. destruct (fp p) eqn:FP; [exfalso; eapply no_snoc; exact E|].
    destruct (contains p && _); [exfalso; eapply no_snoc; exact E|].
    destruct (all_some (map (resolve (t_custom st)) t)) as [rs|] eqn:AS; [|exfalso; eapply no_snoc; exact E].
    apply all_some_map in AS. assert (LEN := F2_len AS).
    assert (ABT : aabout tot p (List.length t)) by (right; exists t; split; auto; left; auto).
    assert (FIN : forall l, List.length l = List.length rs -> Forall2 narrower l rs -> (forall old, tlook (t_inf st) p = Some old -> aone tot p -> Forall2 narrower l old /\ forall ts, old = map SBase ts -> l = old) ->
      Inv fp tot (AFact p t :: done) (set_inf p l st)).
    { intros l L N LO. apply add_fit with (p := p) (ts := [t]); eauto.
      - apply inf_step with (st := st) (p := p) (l := l); [exact H|reflexivity..|exact LO|]. intros _. rewrite L, <- LEN. auto.
      - intros u [<-|[]]. split; auto. intros _. exists l. cbn [set_inf t_inf t_custom]. rewrite tlook_set, String.eqb_refl. split; auto.
        eapply F2_comp with (S := fun (a b : tset) => narrower a b); [|exact AS|exact N]. intros c b s X Y. exists b. auto. }
    destruct (tlook (t_inf st) p) as [old|] eqn:TL.
    + destruct (Nat.eqb_spec (List.length rs) (List.length old)) as [L|]; [|exfalso; eapply no_snoc; exact E].
      destruct (zip_unify old rs) as [l|] eqn:Z; [|exfalso; eapply no_snoc; exact E].
      destruct (@zip_narrow old rs l) as [N1 N2]; auto. assert (LL := F2_len N2). apply FIN; auto. intros old' Q O. inversion Q; subst old'. split; auto.
      intros us ->. eapply zip_base_l; [|exact Z]. rewrite map_length in *. auto.
    + apply FIN; auto; [apply narrow_refl|discriminate].
Qed.
Lemma inv_run : forall fp tot l done st, Inv fp tot done st -> incl l tot -> t_errs (fold_left (act_do fp) l st) = [] ->
  Inv fp tot (rev l ++ done) (fold_left (act_do fp) l st).
Proof.
  induction l as [|a l IH]; intros done st H IC E; simpl in *; auto. rewrite <- app_assoc. apply IH; auto; [|intros x I; apply IC; right; auto].
  apply inv_step; auto; [apply IC; left; auto|]. eapply err_run. exact E.
Qed.
Lemma inv_start : forall fp tot, Inv fp tot [] (mkT [] [] [] [] []).
Proof.
  intros fp tot. constructor; simpl; try (intros; discriminate); try (intros; tauto); try constructor.
  - destruct H as [[]|(ts & [] & _)].
  - destruct H as [[]|(ts & [] & _)].
Qed.

(** ** From items to actions *)
Lemma acts_flat : forall A (f : act -> list A) (g : titem -> list A) its as_,
  (forall i a, In i its -> acts_of i = Some a -> flat_map f a = g i) -> all_some (map acts_of its) = Some as_ -> flat_map f (List.concat as_) = flat_map g its.
Proof.
  intros A f g. induction its as [|i its IH]; simpl; intros as_ H E; [inversion E; auto|].
  destruct (acts_of i) as [a|] eqn:Q; [|discriminate]. destruct (all_some (map acts_of its)) as [r|] eqn:R; [|discriminate]. inversion E; subst.
  simpl. rewrite flat_map_app. f_equal; [apply H; auto|apply IH; auto].
Qed.
Lemma acts_in : forall (a : act) its as_, all_some (map acts_of its) = Some as_ -> (In a (List.concat as_) <-> exists i l, In i its /\ acts_of i = Some l /\ In a l).
Proof.
  intros a. induction its as [|i its IH]; simpl; intros as_ E; [inversion E; simpl; split; [tauto|intros (i & l & [] & _)]|].
  destruct (acts_of i) as [b|] eqn:Q; [|discriminate]. destruct (all_some (map acts_of its)) as [r|] eqn:R; [|discriminate]. inversion E; subst.
  simpl. rewrite in_app_iff, (IH r eq_refl). split.
  - intros [I|(j & l & J & X)]; [exists i, b; auto|exists j, l; auto].
  - intros (j & l & [<-|J] & X & Y); [left; congruence|right; exists j, l; auto].
Qed.
Definition user_rels (l : list titem) : list (string * list tyname) := flat_map (fun i => match i with DRel false _ rs => rs | _ => [] end) l.
Ltac ann a := destruct a as [[[?c|] [?fl|]]|].
Lemma ra_map : forall e rs, flat_map (fun a => match a with ARel false p tys => [(p, tys)] | _ => [] end) (map (fun r : string * list tyname => ARel e (fst r) (snd r)) rs) = if e then [] else rs.
Proof. intros e. induction rs as [|[p tys] rs IH]; simpl; [destruct e; auto|]. rewrite IH. destruct e; auto. Qed.
Lemma ca_map : forall e rs, flat_map (fun a => match a with ACustom n ty => [(n, ty)] | _ => [] end) (map (fun r : string * list tyname => ARel e (fst r) (snd r)) rs) = [].
Proof. intros e. induction rs as [|[p tys] rs IH]; simpl; auto. Qed.
Lemma link_ca : forall its as_, (forall n vs, ~ In (DAdt n vs) its) -> all_some (map acts_of its) = Some as_ -> ca (List.concat as_) = type_decls its.
Proof.
  intros its as_ N E. unfold ca, type_decls. apply acts_flat; auto. intros i a I Q.
  destruct i as [n ty|n vs|n vs|e x rs|p ts|p t]; simpl in Q; try (inversion Q; subst; reflexivity).
  - inversion Q; subst. simpl. f_equal. induction vs; simpl; auto.
    apply IHvs; [intros H; eapply N; exact H..|reflexivity] || (clear; induction vs; simpl; auto).
  - exfalso. eapply N; eauto.
  - ann x; inversion Q; subst; simpl; apply ca_map.
Qed.
Lemma link_ra : forall its as_, all_some (map acts_of its) = Some as_ -> ra (List.concat as_) = user_rels its.
Proof.
  intros its as_ E. unfold ra, user_rels. apply acts_flat; auto. intros i a I Q.
  destruct i as [n ty|n vs|n vs|e x rs|p ts|p t]; simpl in Q; try (inversion Q; subst; reflexivity).
  - inversion Q; subst. simpl. clear. induction vs; simpl; auto.
  - ann x; inversion Q; subst; simpl; rewrite ra_map; destruct e; auto.
Qed.
Lemma not_rel_acts : forall (a : act) i l, acts_of i = Some l -> In a l ->
  match a with
  | AFact p t => i = DFact p t
  | ASet p ts => i = DSet p ts
  | ARel e p tys => exists x rs, i = DRel e x rs /\ In (p, tys) rs
  | AAdt c => exists e fl rs, i = DRel e (Some (mkAnn (Some c) (Some fl))) rs
  | _ => True
  end.
Proof.
  intros a i l Q I.
  assert (MR : forall e rs, In a (map (fun r : string * list tyname => ARel e (fst r) (snd r)) rs) -> exists p tys, a = ARel e p tys /\ In (p, tys) rs).
  { intros e rs J. apply in_map_iff in J as ([p tys] & <- & J). exists p, tys. auto. }
  destruct i as [n ty|n vs|n vs|e x rs|p ts|p t]; simpl in Q.
  - inversion Q; subst. destruct I as [<-|[]]. exact Logic.I.
  - inversion Q; subst. destruct I as [<-|I]; [exact Logic.I|]. apply in_map_iff in I as (v & <- & _). exact Logic.I.
  - inversion Q; subst. destruct I.
  - ann x; inversion Q; subst.
    + destruct I as [<-|I]; [eauto|]. apply MR in I as (p & tys & -> & J). eauto.
    + apply MR in I as (p & tys & -> & J). eauto.
  - inversion Q; subst. destruct I as [<-|[]]. auto.
  - inversion Q; subst. destruct I as [<-|[]]. auto.
Qed.
Lemma link_fa : forall its as_ p t, all_some (map acts_of its) = Some as_ -> (fa (List.concat as_) p t <-> fact_of its p t).
Proof.
  intros its as_ p t E. unfold fa, fact_of. split.
  - intros [I|(ts & I & J)]; apply (acts_in _ _ E) in I as (i & l & I & Q & K); apply (not_rel_acts _ _ Q) in K; cbn in K; subst; eauto.
  - intros [I|(ts & I & J)]; [left|right; exists ts; split; auto]; apply (acts_in _ _ E); eexists; eexists; (split; [exact I|]); (split; [reflexivity|left; reflexivity]).
Qed.

(** ** Algebraic data types *)
Lemma tset_new : forall A (l : list (string * A)) k a, tlook l k = None -> tset_at l k a = l ++ [(k, a)].
Proof. induction l as [|[j b] l IH]; simpl; intros k a E; auto. destruct (String.eqb j k); [discriminate|]. rewrite IH; auto. Qed.
Lemma adt_grow : forall n vs seen st, exists es, snd (adt_variants n seen vs st) = snd st ++ es.
Proof.
  intros n. induction vs as [|[c args] vs IH]; intros seen st; simpl; [exists []; rewrite app_nil_r; auto|].
  match goal with |- context [adt_variants n ?s vs ?x] => destruct (IH s x) as [es E] end. rewrite E. simpl. rewrite <- app_assoc. eauto.
Qed.
Lemma adt_one : forall n vs seen st, snd (adt_variants n seen vs st) = [] -> fst (adt_variants n seen vs st) = fst st ++ map (fun v => (fst v, (n, snd v))) vs.
Proof.
  intros n. induction vs as [|[c args] vs IH]; intros seen st E; simpl in *; [rewrite app_nil_r; auto|]. rewrite IH; auto. cbn [fst].
  match type of E with context [adt_variants n ?s vs ?x] => destruct (adt_grow n vs s x) as [es G] end. rewrite G in E. simpl in E.
  apply app_eq_nil in E as [E _]. apply app_eq_nil in E as [_ E]. apply app_eq_nil in E as [_ E].
  destruct (tlook (fst st) c) eqn:T; [discriminate|]. rewrite tset_new by auto. rewrite <- app_assoc. auto.
Qed.
Lemma adt_all : forall src st, snd (fold_left adt_visit src st) = [] -> fst (fold_left adt_visit src st) = fst st ++ variants src.
Proof.
  assert (G : forall src st, exists es, snd (fold_left adt_visit src st) = snd st ++ es).
  { induction src as [|i src IH]; intros st; simpl; [exists []; rewrite app_nil_r; auto|]. destruct (IH (adt_visit st i)) as [es E].
    rewrite E. destruct i; simpl; eauto. destruct (adt_grow n vs [] st) as [es2 ->]. rewrite <- app_assoc. eauto. }
  induction src as [|i src IH]; intros st E; simpl in *; [rewrite app_nil_r; auto|]. rewrite IH by auto. rewrite app_assoc. f_equal.
  destruct i; simpl; rewrite ?app_nil_r; auto. apply adt_one. destruct (G src (adt_variants n [] vs st)) as [es Q]. simpl in E. rewrite Q in E. apply app_eq_nil in E. tauto.
Qed.

Lemma user_transform : forall src, snd (adt_analysis src) = [] ->
  user_rels (adt_transform src) = user_rels src ++ map (fun v => (adt_rel (fst v), TNamed (fst (snd v)) :: snd (snd v))) (variants src).
Proof.
  intros src E. unfold adt_transform, user_rels at 1. rewrite flat_map_app. f_equal.
  - unfold user_rels. clear E. induction src as [|i src IH]; simpl; auto. rewrite IH. destruct i; auto.
  - unfold adt_analysis in *. rewrite adt_all by auto. cbn [fst app]. generalize (adt_types src). intros tys. clear E.
    induction (variants src) as [|[c [n args]] l IH]; simpl; auto. rewrite IH. auto.
Qed.
Lemma rel_perm : forall src, Permutation (rel_decls src) (user_rels src ++ map (fun v => (adt_rel (fst v), TNamed (fst (snd v)) :: snd (snd v))) (variants src)).
Proof.
  induction src as [|i src IH]; simpl; [constructor|]. destruct i as [n ty|n vs|n vs|e x rs|p ts|p t]; simpl; auto.
  - rewrite map_app, map_map. cbn [fst snd].
    transitivity (map (fun v : string * list tyname => (adt_rel (fst v), TNamed n :: snd v)) vs ++
      user_rels src ++ map (fun v => (adt_rel (fst v), TNamed (fst (snd v)) :: snd (snd v))) (variants src)).
    + apply Permutation_app_head. exact IH.
    + rewrite !app_assoc. apply Permutation_app_tail. apply Permutation_app_comm.
  - destruct e; simpl; auto. rewrite <- app_assoc. apply Permutation_app_head. auto.
Qed.
Lemma program_rels : forall srcs, flat_map (fun s => snd (adt_analysis s)) srcs = [] ->
  Permutation (user_rels (flat_map adt_transform srcs)) (rel_decls (List.concat srcs)).
Proof.
  induction srcs as [|s srcs IH]; simpl; intros E; [constructor|]. apply app_eq_nil in E as [E1 E2].
  unfold user_rels, rel_decls. rewrite !flat_map_app. apply Permutation_app; [|apply IH; auto].
  fold (user_rels (adt_transform s)). fold (rel_decls s). rewrite user_transform by auto. symmetry. apply rel_perm.
Qed.
Lemma transform_types : forall srcs, type_decls (flat_map adt_transform srcs) = type_decls (List.concat srcs).
Proof.
  induction srcs as [|s srcs IH]; simpl; auto. unfold type_decls in *. rewrite !flat_map_app, IH. f_equal. unfold adt_transform. rewrite flat_map_app.
  assert (G : forall tys l, flat_map (fun i => match i with DAlias n t => [(n, t)] | DEnum n _ => [(n, TBase TUSize)] | DAdt n _ => [(n, TBase TEntity)] | _ => [] end) (map (gen tys) l) = [])
    by (intros tys; induction l as [|[c [n args]] l IHl]; simpl; auto).
  rewrite G, app_nil_r. clear. induction s as [|i s IH]; simpl; auto. rewrite IH. destruct i; auto.
Qed.
Lemma gen_in : forall i src, In i (adt_transform src) -> (exists j, In j src /\ i = adt_item j) \/ exists v, In v (fst (adt_analysis src)) /\ i = gen (adt_types src) v.
Proof. intros i src I. unfold adt_transform in I. apply in_app_iff in I as [I|I]; apply in_map_iff in I as (x & <- & I); eauto. Qed.
Lemma no_adt : forall srcs n vs, ~ In (DAdt n vs) (flat_map adt_transform srcs).
Proof.
  intros srcs n vs I. apply in_flat_map in I as (s & _ & I). apply gen_in in I as [(j & _ & E)|([c [m args]] & _ & E)]; [destruct j|]; discriminate.
Qed.
Lemma same_facts : forall srcs p t, fact_of (flat_map adt_transform srcs) p t <-> fact_of (List.concat srcs) p t.
Proof.
  intros srcs p t.
  assert (G : forall i, match i with DFact _ _ | DSet _ _ => True | _ => False end -> (In i (flat_map adt_transform srcs) <-> In i (List.concat srcs))).
  { intros i K. rewrite in_flat_map, in_concat. split.
    - intros (s & S1 & I). exists s. split; auto. apply gen_in in I as [(j & J & ->)|([c [m args]] & _ & ->)]; [destruct j; simpl in *; tauto|destruct K].
    - intros (s & S1 & I). exists s. split; auto. unfold adt_transform. apply in_app_iff. left. apply in_map_iff. exists i. split; auto. destruct i; simpl in *; tauto. }
  unfold fact_of. rewrite (G (DFact p t)) by exact Logic.I. split; intros [A|(ts & A & B)]; auto; right; exists ts; split; auto; apply (G (DSet p ts)); auto; exact Logic.I.
Qed.

Lemma NoDup_app_r' : forall (A : Type) (l m : list A), NoDup (l ++ m) -> NoDup m.
Proof. induction l as [|x l IH]; simpl; intros m N; auto. inversion N. auto. Qed.

(** ** Theorems *)
Section Final.
  Variables (fp : string -> option (list vtype)) (srcs : list (list titem)) (r : tresult).
  Hypothesis P : program fp srcs = Some r.
  Hypothesis E : tr_errors r = [].
  Let all := List.concat srcs.
  Let ds := type_decls all.
  Lemma final_inv : exists acts, Inv fp acts (rev acts) (tr_state r) /\ ca acts = ds /\ Permutation (ra acts) (rel_decls all) /\
    (forall p t, fa acts p t <-> fact_of all p t) /\ (forall a, In a acts <-> exists i l, In i (flat_map adt_transform srcs) /\ acts_of i = Some l /\ In a l).
  Proof.
    unfold program in P. destruct (visits fp (mkT [] [] [] [] []) (flat_map adt_transform srcs)) as [st|] eqn:V; [|discriminate].
    inversion P; subst r. cbn [tr_errors tr_state] in *. apply app_eq_nil in E as [E1 E2].
    destruct (visits_acts _ _ _ V) as (as_ & A & ->). exists (List.concat as_).
    split; [|split; [|split; [|split]]].
    - assert (I := @inv_run fp (List.concat as_) (List.concat as_) [] (mkT [] [] [] [] []) (inv_start fp (List.concat as_)) (incl_refl _) E2).
      rewrite app_nil_r in I. exact I.
    - rewrite (@link_ca (flat_map adt_transform srcs) as_); auto; [apply transform_types|]. intros n vs. apply no_adt.
    - rewrite (link_ra _ A). apply program_rels. auto.
    - intros p t. rewrite (@link_fa _ _ p t A). apply same_facts.
    - intros a. apply acts_in. auto.
  Qed.
  Lemma ca_in : forall acts x, In x (ca (rev acts)) <-> In x (ca acts).
  Proof. intros acts x. unfold ca. rewrite !in_flat_map. split; intros (y & I & J); exists y; split; auto; apply in_rev in I; rewrite ?rev_involutive in *; auto. Qed.
  Lemma ra_in : forall acts x, In x (ra (rev acts)) <-> In x (ra acts).
  Proof. intros acts x. unfold ra. rewrite !in_flat_map. split; intros (y & I & J); exists y; split; auto; apply in_rev in I; rewrite ?rev_involutive in *; auto. Qed.
  Lemma fa_in : forall acts p t, fa acts p t -> fa (rev acts) p t.
  Proof. intros acts p t [I|(ts & I & J)]; [left; apply in_rev in I; auto|right; exists ts; split; auto; apply in_rev in I; auto]. Qed.
  Lemma rev_flat_perm : forall A B (f : A -> list B) l, Permutation (flat_map f (rev l)) (flat_map f l).
  Proof. intros. apply Permutation_flat_map. apply Permutation_sym. apply Permutation_rev. Qed.
  Lemma means_find : forall acts, Inv fp acts (rev acts) (tr_state r) -> ca acts = ds -> forall ty t, means ds ty t <-> find_type (t_custom (tr_state r)) ty = Some t.
  Proof.
    intros acts I C ty t. split.
    - induction 1 as [t|n ty t J M IH]; simpl; auto. rewrite <- C in J. apply ca_in in J. destruct (v_cus I _ _ J) as (u & A & B). congruence.
    - destruct ty as [b|n]; simpl; [intros X; inversion X; constructor|]. intros X. rewrite <- C. apply (v_mean I). auto.
  Qed.
  Theorem C92_types : (forall n t, tlook (t_custom (tr_state r)) n = Some t <-> means ds (TNamed n) t) /\
    NoDup (map fst ds) /\ (forall n ty, In (n, ty) ds -> exists t, means ds ty t /\ means ds (TNamed n) t) /\
    (forall ty t u, means ds ty t -> means ds ty u -> t = u).
  Proof.
    destruct final_inv as (acts & I & C & _). assert (M := means_find I C). split; [|split; [|split]].
    - intros n t. rewrite M. simpl. tauto.
    - rewrite <- C. eapply Permutation_NoDup; [|exact (v_cnd I)]. apply Permutation_map. unfold ca. apply rev_flat_perm.
    - intros n ty J. rewrite <- C in J. apply ca_in in J. destruct (v_cus I _ _ J) as (t & A & B). exists t. rewrite !M. auto.
    - intros ty t u A B. rewrite M in *. congruence.
  Qed.
  Lemma one_acts : forall acts p, Permutation (ra acts) (rel_decls all) -> (forall p t, fa acts p t <-> fact_of all p t) -> one_arity all p -> aone acts p.
  Proof.
    intros acts p R F O n m A B. assert (T : forall k, aabout acts p k -> about all p k).
    { intros k [(tys & I & L)|(t & I & L)]; [left; exists tys; split; auto; eapply Permutation_in; [exact R|exact I]|right; exists t; split; auto; apply F; auto]. }
    auto.
  Qed.
  Theorem C92_relations : NoDup (map fst (rel_decls all)) /\ forall p tys, In (p, tys) (rel_decls all) -> fp p = None /\
    exists ts, Forall2 (means ds) tys ts /\ (one_arity all p -> relation_types (tr_state r) p = Some ts).
  Proof.
    destruct final_inv as (acts & I & C & R & F & _). split.
    - eapply Permutation_NoDup; [|exact (v_rnd I)]. apply Permutation_map. etransitivity; [unfold ra; apply rev_flat_perm|exact R].
    - intros p tys J. apply (Permutation_in _ (Permutation_sym R)) in J. apply ra_in in J. destruct (v_rel I _ _ J) as (A & _ & ts & B & D).
      split; auto. exists ts. split; [eapply F2_impl; [|exact B]; intros x y; apply (means_find I C)|]. intros O.
      unfold relation_types. rewrite D by (eapply one_acts; eauto). rewrite map_map. simpl. rewrite map_id. auto.
  Qed.
  Theorem C92_facts : forall p t, fact_of all p t -> fp p = None /\
    forall tys, In (p, tys) (rel_decls all) -> one_arity all p -> exists ts, Forall2 (means ds) tys ts /\ Forall2 (can_have ds) t ts.
  Proof.
    destruct final_inv as (acts & I & C & R & F & _). intros p t J. apply F, fa_in in J. destruct (v_fit I J) as [A B]. split; auto.
    intros tys K O. assert (AO : aone acts p) by (eapply one_acts; eauto). apply (Permutation_in _ (Permutation_sym R)) in K. apply ra_in in K.
    destruct (v_rel I _ _ K) as (_ & _ & ts & D & G). exists ts. split; [eapply F2_impl; [|exact D]; intros x y; apply (means_find I C)|].
    destruct (B AO) as (l & L & Q). rewrite (G AO) in L. inversion L; subst l. clear - Q I C.
    remember (map SBase ts) as l eqn:X. revert ts X. induction Q as [|c s cs l H Q IH]; intros [|u ts] X; try discriminate; constructor; inversion X; subst; auto.
    destruct H as (x & Y & N). assert (Z : ts_contains x u = true) by (apply N; simpl; unfold vt_eqb; destruct (vtype_eq_dec u u); [reflexivity|congruence]).
    destruct c as [s0|ty]; simpl in *; [congruence|]. destruct (find_type (t_custom (tr_state r)) ty) as [w|] eqn:FT; [|discriminate]. inversion Y; subst x.
    simpl in Z. unfold vt_eqb in Z. destruct (vtype_eq_dec w u); [subst|discriminate]. apply (means_find I C). auto.
  Qed.
  Theorem C92_extern : forall p tys, In (p, tys) (ext_decls all) -> exists fts, fp p = Some fts /\ tys = map TBase fts.
  Proof.
    destruct final_inv as (acts & I & C & R & F & AI). intros p tys J. apply (v_ext I). apply -> in_rev. apply AI.
    unfold ext_decls in J. apply in_flat_map in J as (i & J & K). destruct i as [| | |e x rs| |]; simpl in K; try tauto. destruct e; [|destruct K].
    exists (DRel true x rs). assert (IT : In (DRel true x rs) (flat_map adt_transform srcs)).
    { unfold all in J. apply in_concat in J as (s & S1 & J). apply in_flat_map. exists s. split; auto. unfold adt_transform. apply in_app_iff. left. apply in_map_iff. exists (DRel true x rs). auto. }
    assert (MR : In (ARel true p tys) (map (fun r0 : string * list tyname => ARel true (fst r0) (snd r0)) rs)) by (apply in_map_iff; exists (p, tys); auto).
    assert (OK : acts_of (DRel true x rs) <> None).
    { intros X. unfold program in P. destruct (visits fp (mkT [] [] [] [] []) (flat_map adt_transform srcs)) as [st|] eqn:V; [|discriminate].
      destruct (visits_acts _ _ _ V) as (as_ & A & _). apply all_some_map in A. clear - A IT X. induction A; [destruct IT|]. destruct IT as [->|IT]; [congruence|auto]. }
    simpl in OK. ann x; try (exfalso; apply OK; reflexivity); eexists; (split; [exact IT|]); (split; [reflexivity|]); simpl; auto.
  Qed.
  Lemma in_variants : forall c n args, In (c, (n, args)) (variants all) -> In (n, TBase TEntity) ds /\ In (adt_rel c, TNamed n :: args) (rel_decls all).
  Proof.
    intros c n args J. unfold variants in J. apply in_flat_map in J as (i & J & K). destruct i as [| |m vs| | |]; simpl in K; try tauto.
    apply in_map_iff in K as ([c' a'] & Q & K). simpl in Q. inversion Q; subst. split.
    - unfold ds, type_decls. apply in_flat_map. eexists. split; [exact J|left; auto].
    - unfold rel_decls. apply in_flat_map. eexists. split; [exact J|]. apply in_map_iff. exists (c, args). auto.
  Qed.
  Theorem C92_variants : no_ann all -> (forall c v, In (c, v) (variants all) -> one_arity all (adt_rel c)) ->
    NoDup (map fst (variants all)) /\
    exists reg, variant_registry (tr_state r) = Some reg /\
      (forall c n args, In (c, (n, args)) (variants all) -> exists ts, Forall2 (means ds) args ts /\ tlook reg c = Some (adt_rel c, TEntity :: ts)) /\
      (forall c x, tlook reg c = Some x -> exists n args, In (c, (n, args)) (variants all)).
  Proof.
    intros NA OA. destruct C92_relations as [ND RT]. destruct C92_types as (_ & _ & _ & MU).
    destruct final_inv as (acts & I & C & R & F & AI).
    assert (EA : flat_map (fun s => snd (adt_analysis s)) srcs = []).
    { unfold program in P. destruct (visits _ _ _); [|discriminate]. inversion P; subst r. cbn [tr_errors] in E. apply app_eq_nil in E. tauto. }
    assert (VA : forall c, In (AAdt c) acts <-> exists v, In (c, v) (variants all)).
    { intros c. rewrite AI. split.
      - intros (i & l & J & Q & K). apply (not_rel_acts _ _ Q) in K as (e & fl & rs & ->). apply in_flat_map in J as (s & S1 & J).
        apply gen_in in J as [(j & J & X)|([c' [n args]] & J & X)].
        + exfalso. destruct j; try discriminate. simpl in X. inversion X; subst. eapply NA. unfold all. apply in_concat. eauto.
        + inversion X; subst. exists (n, args). unfold adt_analysis in J. rewrite adt_all in J.
          * unfold variants, all in *. simpl in J. apply in_flat_map in J as (i & J1 & J2). apply in_flat_map. exists i. split; auto. apply in_concat. eauto.
          * clear - EA S1. induction srcs as [|s' l IH]; [destruct S1|]. simpl in EA. apply app_eq_nil in EA as [A B]. destruct S1 as [->|S1]; auto.
      - intros [[n args] J]. unfold variants, all in J. apply in_flat_map in J as (i & J1 & J2). apply in_concat in J1 as (s & S1 & S2).
        exists (gen (adt_types s) (c, (n, args))). eexists. split; [|split; [reflexivity|left; auto]]. apply in_flat_map. exists s. split; auto.
        unfold adt_transform. apply in_app_iff. right. apply in_map. unfold adt_analysis. rewrite adt_all.
        + simpl. unfold variants. apply in_flat_map. exists i. auto.
        + clear - EA S1. induction srcs as [|s' l IH]; [destruct S1|]. simpl in EA. apply app_eq_nil in EA as [A B]. destruct S1 as [->|S1]; auto. }
    split.
    { assert (PP := rel_perm all). apply (Permutation_map fst) in PP. apply (Permutation_NoDup PP) in ND. rewrite map_app, map_map in ND. cbn [fst] in ND.
      apply NoDup_app_r' in ND. rewrite <- (map_map fst adt_rel) in ND. apply NoDup_map_inv in ND. auto. }
    assert (TY : forall rl c, In (rl, c) (t_adt (tr_state r)) -> rl = adt_rel c /\ exists n args ts, In (c, (n, args)) (variants all) /\ Forall2 (means ds) args ts /\ relation_types (tr_state r) rl = Some (TEntity :: ts)).
    { intros rl c J. destruct (v_adt2 I _ _ J) as [-> K]. apply VA in K as [[n args] K]. split; auto. exists n, args. destruct (in_variants _ _ _ K) as [D1 D2].
      destruct (RT _ _ D2) as (_ & ts & M & T). inversion M as [|? t0 ? ts0 M1 M2]; subst. exists ts0. split; auto. split; auto.
      rewrite (T (OA _ _ K)). do 2 f_equal. apply (MU (TNamed n)); auto. econstructor; [exact D1|constructor]. }
    unfold variant_registry. set (f := fun x : string * string => match relation_types (tr_state r) (fst x) with Some ts => Some (snd x, (fst x, ts)) | None => None end).
    assert (RG : exists reg, all_some (map f (t_adt (tr_state r))) = Some reg).
    { clear - TY. induction (t_adt (tr_state r)) as [|[rl c] l IH]; simpl; [eauto|]. destruct IH as [reg G]; [intros; apply TY; right; auto|].
      destruct (TY rl c (or_introl eq_refl)) as (_ & n & args & ts & _ & _ & T). unfold f at 1. cbn [fst snd]. rewrite T, G. eauto. }
    destruct RG as [reg G]. exists reg. split; auto. apply all_some_map in G.
    assert (RI : forall c x, In (c, x) reg -> exists n args ts, In (c, (n, args)) (variants all) /\ Forall2 (means ds) args ts /\ x = (adt_rel c, TEntity :: ts)).
    { intros c x J. assert (exists rl, In (rl, c) (t_adt (tr_state r)) /\ f (rl, c) = Some (c, x)).
      { clear - G J. induction G as [|[rl d] y l m X G IH]; [destruct J|]. destruct J as [->|J].
        - exists rl. assert (d = c) by (unfold f in X; cbn [fst snd] in X; destruct (relation_types _ _); inversion X; auto). subst. split; [left; auto|auto].
        - destruct (IH J) as (rl' & A & B). exists rl'. split; [right; auto|auto]. }
      destruct H as (rl & A & B). destruct (TY _ _ A) as (-> & n & args & ts & K & M & T). unfold f in B. cbn [fst snd] in B. rewrite T in B. inversion B; subst. exists n, args, ts. auto. }
    split.
    - intros c n args J. assert (K : In (AAdt c) acts) by (apply VA; eauto). apply in_rev in K. apply (v_adt1 I) in K.
      assert (LK : exists x, tlook reg c = Some x).
      { assert (IN : forall (l : list (string * string)) k a, tlook l k = Some a -> In (k, a) l).
        { clear. induction l as [|[j b] l IH]; simpl; intros k a H; [discriminate|]. destruct (String.eqb_spec j k) as [->|]; [inversion H; auto|auto]. }
        apply IN in K. clear - G K. induction G as [|[rl d] y l m X G IH]; [destruct K|]. destruct y as [d' x']. 
        assert (d' = d) by (unfold f in X; cbn [fst snd] in X; destruct (relation_types _ _); inversion X; auto). subst. simpl.
        destruct (String.eqb_spec d c); [eauto|]. destruct K as [K|K]; [inversion K; congruence|auto]. }
      destruct LK as [x LK]. assert (IN : In (c, x) reg).
      { clear - LK. induction reg as [|[j b] l IH]; simpl in *; [discriminate|]. destruct (String.eqb_spec j c) as [->|]; [inversion LK; auto|auto]. }
      destruct (RI _ _ IN) as (n' & args' & ts & K' & M & ->).
      destruct (in_variants _ _ _ J) as [_ D1]. destruct (in_variants _ _ _ K') as [_ D2].
      assert (UN : forall (l : list (string * list tyname)) p (a b : list tyname), NoDup (map fst l) -> In (p, a) l -> In (p, b) l -> a = b).
      { clear. induction l as [|[q c] l IH]; simpl; intros p a b N A B; [tauto|]. inversion N as [|? ? N1 N2]; subst.
        destruct A as [A|A], B as [B|B]; [congruence|..|eauto]; [inversion A; subst|inversion B; subst]; exfalso; apply N1; apply in_map_iff; [exists (p, b)|exists (p, a)]; auto. }
      assert (Q := UN _ _ _ _ ND D1 D2). inversion Q; subst. exists ts. auto.
    - intros c x LK. assert (IN : In (c, x) reg).
      { clear - LK. induction reg as [|[j b] l IH]; simpl in *; [discriminate|]. destruct (String.eqb_spec j c) as [->|]; [inversion LK; auto|auto]. }
      destruct (RI _ _ IN) as (n & args & ts & K & _). eauto.
  Qed.
End Final.
Print Assumptions C92_types.
Print Assumptions C92_relations.
Print Assumptions C92_facts.
Print Assumptions C92_extern.
Print Assumptions C92_variants.

(** a constructor is declared once in the whole program *)
Theorem C92_constructors : forall fp srcs r, program fp srcs = Some r -> tr_errors r = [] -> NoDup (map fst (variants (List.concat srcs))).
Proof.
  intros fp srcs r P E. destruct (@C92_relations fp srcs r P E) as [ND _]. assert (PP := rel_perm (List.concat srcs)). apply (Permutation_map fst) in PP.
  apply (Permutation_NoDup PP) in ND. rewrite map_app, map_map in ND. cbn [fst] in ND. apply NoDup_app_r' in ND.
  rewrite <- (map_map fst adt_rel) in ND. apply NoDup_map_inv in ND. auto.
Qed.
Print Assumptions C92_constructors.

(** ** What was checked on the way *)
Lemma acts_ok : forall fp srcs r, program fp srcs = Some r -> tr_errors r = [] -> exists acts,
  (forall a, In a acts <-> exists i l, In i (flat_map adt_transform srcs) /\ acts_of i = Some l /\ In a l) /\
  forall a, In a acts -> exists done st, Inv fp acts done st /\ t_errs (act_do fp st a) = [].
Proof.
  intros fp srcs r P E. unfold program in P. destruct (visits fp (mkT [] [] [] [] []) (flat_map adt_transform srcs)) as [st|] eqn:V; [|discriminate].
  inversion P; subst r. cbn [tr_errors tr_state] in *. apply app_eq_nil in E as [E1 E2]. destruct (visits_acts _ _ _ V) as (as_ & A & ->).
  exists (List.concat as_). split; [intros a; apply acts_in; auto|]. intros a I. apply in_split in I as (l1 & l2 & X).
  set (tot := List.concat as_) in *. rewrite X, fold_left_app in E2. simpl in E2. apply err_run in E2.
  assert (E3 : t_errs (fold_left (act_do fp) l1 (mkT [] [] [] [] [])) = []) by (apply (err_run fp [a]); exact E2).
  exists (rev l1 ++ []), (fold_left (act_do fp) l1 (mkT [] [] [] [] [])). split; [|exact E2]. apply inv_run; auto; [apply inv_start|].
  rewrite X. intros x J. apply in_app_iff. auto.
Qed.
Lemma kept_item : forall srcs i, In i (List.concat srcs) -> adt_item i = i -> In i (flat_map adt_transform srcs).
Proof.
  intros srcs i I A. apply in_concat in I as (s & S1 & I). apply in_flat_map. exists s. split; auto. unfold adt_transform. apply in_app_iff. left. apply in_map_iff. eauto.
Qed.
(** the values of members of enums are natural numbers *)
Theorem C92_enum : forall fp srcs r, program fp srcs = Some r -> tr_errors r = [] ->
  forall n vs v, In (DEnum n vs) (List.concat srcs) -> In (Some v) vs -> exists z, v = EvInt z /\ (0 <= z)%Z.
Proof.
  intros fp srcs r P E n vs v I J. destruct (acts_ok _ _ P E) as (acts & A & B).
  destruct (B (AMember (Some v))) as (dn & st & _ & K).
  { apply A. exists (DEnum n vs). eexists. split; [apply kept_item; auto|]. split; [reflexivity|]. right. apply in_map. auto. }
  simpl in K. destruct v as [z|]; simpl in K; [|apply no_snoc in K; destruct K]. exists z. split; auto.
  destruct (Z.ltb_spec z 0); auto. simpl in K. apply no_snoc in K. destruct K.
Qed.
Print Assumptions C92_enum.
Lemma contains_ok : forall p, (exists a b, p = a ++ "adt#" ++ b)%string -> contains p = true.
Proof.
  intros p (a & b & ->). induction a as [|c a IH]; [destruct b; reflexivity|]. change (String.prefix "adt#" (String c (a ++ "adt#" ++ b)%string) || contains (a ++ "adt#" ++ b)%string = true). rewrite IH. apply orb_true_r.
Qed.
(** facts of constructors are of declared constructors *)
Theorem C92_constructor_facts : forall fp srcs r, program fp srcs = Some r -> tr_errors r = [] -> no_ann (List.concat srcs) ->
  forall p t, In (DFact p t) (List.concat srcs) -> (exists a b, p = a ++ "adt#" ++ b)%string -> exists c v, p = adt_rel c /\ In (c, v) (variants (List.concat srcs)).
Proof.
  intros fp srcs r P E NA p t I C. apply contains_ok in C. destruct (acts_ok _ _ P E) as (acts & A & B).
  destruct (B (AFact p t)) as (dn & st & V & K).
  { apply A. exists (DFact p t). eexists. split; [apply kept_item; auto|]. split; [reflexivity|]. left. auto. }
  simpl in K. unfold visit_fact in K. destruct (fp p); [simpl in K; apply no_snoc in K; destruct K|]. rewrite C in K.
  destruct (tlook (t_adt st) p) as [c|] eqn:L; [|simpl in K; apply no_snoc in K; destruct K].
  assert (IN : In (p, c) (t_adt st)).
  { clear - L. induction (t_adt st) as [|[j b] l IH]; simpl in *; [discriminate|]. destruct (String.eqb_spec j p) as [->|]; [inversion L; auto|auto]. }
  destruct (v_adt2 V _ _ IN) as [-> AD]. exists c. apply A in AD as (i & l & J & Q & M). apply (not_rel_acts _ _ Q) in M as (e & fl & rs & ->).
  apply in_flat_map in J as (s & S1 & J). apply gen_in in J as [(j & J & X)|([c' [n args]] & J & X)].
  - exfalso. destruct j; try discriminate. simpl in X. inversion X; subst. eapply NA. apply in_concat. eauto.
  - inversion X; subst. exists (n, args). split; auto. unfold program in P. destruct (visits _ _ _); [|discriminate]. inversion P; subst r. cbn [tr_errors] in E.
    apply app_eq_nil in E as [EA _]. unfold adt_analysis in J. rewrite adt_all in J.
    + simpl in J. unfold variants in *. apply in_flat_map in J as (i & J1 & J2). apply in_flat_map. exists i. split; auto. apply in_concat. eauto.
    + clear - EA S1. induction srcs as [|s' l' IH]; [destruct S1|]. simpl in EA. apply app_eq_nil in EA as [A B]. destruct S1 as [->|S1]; auto.
Qed.
Print Assumptions C92_constructor_facts.

(** the analysis panics exactly for a malformed attribute *)
Definition malformed (i : titem) : Prop := exists e a rs, i = DRel e (Some a) rs /\ (an_name a = None \/ an_flags a = None).
Lemma visit_none : forall fp st i, visit fp st i = None <-> malformed i.
Proof.
  intros fp st i. unfold malformed. split.
  - destruct i as [n ty|n vs|n vs|e [[nm fl]|] rs|p ts|p t]; simpl; try discriminate. intros H. exists e, (mkAnn nm fl), rs. split; auto. simpl.
    destruct nm, fl; try discriminate; auto.
  - intros (e & [nm fl] & rs & -> & H). simpl in *. destruct nm, fl; auto. destruct H; discriminate.
Qed.
Lemma visits_none : forall fp its st, visits fp st its = None <-> exists i, In i its /\ malformed i.
Proof.
  intros fp. induction its as [|i its IH]; intros st; simpl; [split; [discriminate|intros (i & [] & _)]|].
  destruct (visit fp st i) as [st'|] eqn:V.
  - rewrite IH. split; [intros (j & J & M); eauto|]. intros (j & [<-|J] & M); [|eauto]. apply (visit_none fp st) in M. congruence.
  - split; auto. intros _. exists i. split; auto. eapply visit_none; eauto.
Qed.
Theorem C92_panic : forall fp srcs, program fp srcs = None <-> exists i, In i (List.concat srcs) /\ malformed i.
Proof.
  intros fp srcs. unfold program. destruct (visits fp (mkT [] [] [] [] []) (flat_map adt_transform srcs)) as [st|] eqn:V.
  - split; [discriminate|]. intros (i & I & M). exfalso.
    assert (X : visits fp (mkT [] [] [] [] []) (flat_map adt_transform srcs) = None); [|congruence]. apply visits_none. exists i. split; auto.
    apply in_concat in I as (s & S1 & I). apply in_flat_map. exists s. split; auto. unfold adt_transform. apply in_app_iff. left.
    apply in_map_iff. exists i. split; auto. destruct M as (e & a & rs & -> & _). auto.
  - split; auto. intros _. apply visits_none in V as (i & I & M). exists i. split; auto. apply in_flat_map in I as (s & S1 & I).
    apply gen_in in I as [(j & J & ->)|([c [n args]] & _ & ->)].
    + apply in_concat. exists s. split; auto. destruct M as (e & a & rs & X & _). destruct j; simpl in *; auto; discriminate.
    + exfalso. destruct M as (e & a & rs & X & H). inversion X; subst. simpl in H. destruct H; discriminate.
Qed.
Print Assumptions C92_panic.

(** ** Examples *)
Definition ex_fp (p : string) : option (list vtype) := if String.eqb p "range" then Some [TI32; TI32; TI32] else None.
Definition ex_srcs : list (list titem) :=
  [ [DAlias "id" (TBase TU32); DAlias "node" (TNamed "id"); DEnum "color" [None; Some (EvInt 3)];
     DRel true None [("range", [TBase TI32; TBase TI32; TBase TI32])];
     DAdt "expr" [("Const", [TBase TI32]); ("Add", [TNamed "expr"; TNamed "expr"])]];
    [DFact "edge" [CLit SInteger; CTyped (TNamed "node")];
     DRel false None [("edge", [TNamed "node"; TNamed "node"]); ("paint", [TNamed "node"; TNamed "color"])];
     DSet "paint" [[CLit SInteger; CLit SInteger]; [CLit SInteger; CLit SAny]]] ].
Example C92_ex : exists r, program ex_fp ex_srcs = Some r /\ tr_errors r = [] /\
  relation_types (tr_state r) "edge" = Some [TU32; TU32] /\ relation_types (tr_state r) "paint" = Some [TU32; TUSize] /\
  variant_registry (tr_state r) = Some [("Const", ("adt#Const", [TEntity; TI32])); ("Add", ("adt#Add", [TEntity; TEntity; TEntity]))].
Proof. eexists. split; [vm_compute; reflexivity|]. repeat split; vm_compute; reflexivity. Qed.
Definition arity_check (l : list titem) (p : string) (n : nat) : bool :=
  forallb (fun x => negb (String.eqb (fst x) p) || Nat.eqb (List.length (snd x)) n) (rel_decls l) &&
  forallb (fun i => match i with
                    | DFact q t => negb (String.eqb q p) || Nat.eqb (List.length t) n
                    | DSet q ts => negb (String.eqb q p) || forallb (fun t => Nat.eqb (List.length t) n) ts
                    | _ => true end) l.
Lemma arity_check_ok : forall l p n, arity_check l p n = true -> one_arity l p.
Proof.
  intros l p n H. apply andb_prop in H as [H1 H2]. rewrite forallb_forall in H1, H2.
  assert (K : forall m, about l p m -> m = n).
  { intros m [(tys & I & <-)|(t & [I|(ts & I & J)] & <-)].
    - apply H1 in I. simpl in I. rewrite String.eqb_refl in I. simpl in I. apply Nat.eqb_eq. auto.
    - apply H2 in I. simpl in I. rewrite String.eqb_refl in I. simpl in I. apply Nat.eqb_eq. auto.
    - apply H2 in I. simpl in I. rewrite String.eqb_refl in I. simpl in I. rewrite forallb_forall in I. apply Nat.eqb_eq. auto. }
  intros a b A B. rewrite (K _ A), (K _ B). auto.
Qed.
Example C92_ex_hyps : one_arity (List.concat ex_srcs) "edge" /\ one_arity (List.concat ex_srcs) "paint" /\ no_ann (List.concat ex_srcs) /\
  (forall c v, In (c, v) (variants (List.concat ex_srcs)) -> one_arity (List.concat ex_srcs) (adt_rel c)) /\
  fact_of (List.concat ex_srcs) "paint" [CLit SInteger; CLit SAny].
Proof.
  split; [apply arity_check_ok with 2; vm_compute; reflexivity|]. split; [apply arity_check_ok with 2; vm_compute; reflexivity|]. split; [|split].
  - intros e a rs I. simpl in I. repeat (destruct I as [I|I]; [discriminate|]). destruct I.
  - intros c v I. simpl in I. destruct I as [I|[I|[]]]; inversion I; subst; [apply arity_check_ok with 2|apply arity_check_ok with 3]; vm_compute; reflexivity.
  - right. eexists. split; [simpl; do 7 right; left; reflexivity|simpl; auto].
Qed.
(** errors *)
Definition errs_of (o : option tresult) : option (list terr) := match o with Some r => Some (tr_errors r) | None => None end.
Example C92_ex_errors :
  errs_of (program ex_fp [[DAlias "a" (TBase TI32); DAlias "a" (TBase TI32)]]) = Some [EDupType "a"] /\
  errs_of (program ex_fp [[DRel false None [("r", [TBase TI32]); ("r", [TBase TI32])]]]) = Some [EDupRel "r"] /\
  errs_of (program ex_fp [[DRel false None [("range", [TBase TI32])]]]) = Some [EForeign "range"] /\
  errs_of (program ex_fp [[DRel true None [("range", [TBase TI32; TBase TI32; TBase TU32])]]]) = Some [EExtType "range"] /\
  errs_of (program ex_fp [[DRel false None [("r", [TBase TString])]; DFact "r" [CLit SInteger]]]) = Some [EUnify] /\
  errs_of (program ex_fp [[DEnum "e" [Some (EvInt (-1)); Some EvOther; None]]]) = Some [ENegEnum; EBadEnum] /\
  errs_of (program ex_fp [[DAdt "t" [("A", [])]]; [DFact "adt#A" [CLit SAny]; DFact "adt#B" [CLit SAny]]]) = Some [EUnknownVariant "adt#B"] /\
  errs_of (program ex_fp [[DAdt "t" [("A", []); ("A", [])]]]) = Some [EDupVariant "A"; EDupVariant "A"] /\
  errs_of (program ex_fp [[DAdt "t" [("A", [])]]; [DAdt "u" [("A", [])]]]) = Some [EDupRel "adt#A"].
Proof. repeat split; vm_compute; reflexivity. Qed.

(** ** What does not hold *)
(** every program whose types have meanings is accepted: not when a name is used before it is declared *)
Theorem C92_forward_refuted : exists srcs, (forall n ty, In (n, ty) (type_decls (List.concat srcs)) -> exists t, means (type_decls (List.concat srcs)) ty t) /\
  NoDup (map fst (type_decls (List.concat srcs))) /\ errs_of (program ex_fp srcs) = Some [EUnknownType] /\
  errs_of (program ex_fp [rev (List.concat srcs)]) = Some [].
Proof.
  exists [[DAlias "A" (TNamed "B"); DAlias "B" (TBase TI32)]]. split; [|split; [|split; vm_compute; reflexivity]].
  - intros n ty I. simpl in *. destruct I as [I|[I|[]]]; inversion I; subst; exists TI32; [|constructor]. econstructor; [right; left; reflexivity|constructor].
  - simpl. constructor; [intros [X|[]]; discriminate|]. constructor; [intros []|constructor].
Qed.
Print Assumptions C92_forward_refuted.
(** facts of another arity than the declaration are reported: not when they come first. The relation then has the
    smaller number of arguments, even when that is not the declared number. *)
Theorem C92_arity_refuted : exists d f g, let p1 := program ex_fp [[f; d]] in let p2 := program ex_fp [[g; d]] in
  rel_decls [d] = [("r", [TBase TI32; TBase TString])] /\ fact_of [f] "r" [CLit SInteger] /\ fact_of [g] "r" [CLit SInteger; CTyped (TBase TString); CLit SInteger] /\
  (exists r, p1 = Some r /\ tr_errors r = [] /\ relation_types (tr_state r) "r" = Some [TI32]) /\
  (exists r, p2 = Some r /\ tr_errors r = [] /\ relation_types (tr_state r) "r" = Some [TI32; TString]) /\
  errs_of (program ex_fp [[d; f]]) = Some [EArity "r"] /\ errs_of (program ex_fp [[d; g]]) = Some [EArity "r"].
Proof.
  exists (DRel false None [("r", [TBase TI32; TBase TString])]), (DFact "r" [CLit SInteger]), (DFact "r" [CLit SInteger; CTyped (TBase TString); CLit SInteger]).
  cbv zeta. split; [reflexivity|]. split; [left; left; reflexivity|]. split; [left; left; reflexivity|].
  split; [eexists; split; [vm_compute; reflexivity|split; vm_compute; reflexivity]|].
  split; [eexists; split; [vm_compute; reflexivity|split; vm_compute; reflexivity]|]. split; vm_compute; reflexivity.
Qed.
Print Assumptions C92_arity_refuted.
(** the attribute [adt] is only for the compiler, but users can write it: the compiler then panics, here or when the
    registry of variants is made *)
Theorem C92_annotation_refuted : exists i j r, program ex_fp [[i]] = None /\
  program ex_fp [[j]] = Some r /\ tr_errors r = [] /\ variant_registry (tr_state r) = None.
Proof.
  exists (DRel false (Some (mkAnn None None)) [("r", [TBase TI32])]), (DRel false (Some (mkAnn (Some "Foo") (Some [false]))) [("r", [TBase TI32])]).
  eexists. split; [vm_compute; reflexivity|]. split; [vm_compute; reflexivity|]. split; vm_compute; reflexivity.
Qed.
Print Assumptions C92_annotation_refuted.
