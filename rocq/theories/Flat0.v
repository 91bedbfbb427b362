(** Flattening without the inverse assignments (Front.v [inverses]): a proof
    device, not part of the compiler.  The rules that the compiler makes are the
    rules made this way, padded (PlanPad.v); and the rules made this way have the
    meaning of the source even where sums saturate.  Used by C61. *)
From Coq Require Import List ZArith Bool Arith Lia.
From Verif Require Import Value ListAux Back Eval BackSem Plan PlanSem PlanFacts Front FrontSem FrontFacts PropsFront FlatFacts PropsFlat PlanPad PadRun.
Import ListNotations.
Set Implicit Arguments.
Local Arguments bin_value : simpl never.
Local Arguments un_value : simpl never.

Section Stripped.
  Variable fr : nat -> var.
  (** [flat] without inverses. *)
  Fixpoint s_flat (e : expr) (n : nat) : term * list lit * nat :=
    match e with
    | EVar v => (TVar v, [], n)
    | EWild => (TVar (fr n), [], S n)
    | EConst c => (TConst c, [], n)
    | EBin op a b =>
        let '(ta, la, n1) := s_flat a (S n) in
        let '(tb, lb, n2) := s_flat b n1 in
        (TVar (fr n), LAssign (fr n) (ABin op ta tb) :: la ++ lb, n2)
    | EUn op a =>
        let '(ta, la, n1) := s_flat a (S n) in
        (TVar (fr n), LAssign (fr n) (AUn op ta) :: la, n1)
    | EIte c a b =>
        let '(tc, lc, n1) := s_flat c (S n) in
        let '(ta, la, n2) := s_flat a n1 in
        let '(tb, lb, n3) := s_flat b n2 in
        (TVar (fr n), LAssign (fr n) (AIte tc ta tb) :: lc ++ la ++ lb, n3)
    | ECall f l =>
        let '(ts, ls, n1) :=
          (fix args (l : list expr) (n : nat) : list term * list lit * nat :=
             match l with
             | [] => ([], [], n)
             | e :: l => let '(t, l1, n1) := s_flat e n in let '(ts, l2, n2) := args l n1 in (t :: ts, l1 ++ l2, n2)
             end) l (S n) in
        (TVar (fr n), LAssign (fr n) (ACall f ts) :: ls, n1)
    | ENew f l =>
        let '(ts, ls, n1) :=
          (fix args (l : list expr) (n : nat) : list term * list lit * nat :=
             match l with
             | [] => ([], [], n)
             | e :: l => let '(t, l1, n1) := s_flat e n in let '(ts, l2, n2) := args l n1 in (t :: ts, l1 ++ l2, n2)
             end) l (S n) in
        (TVar (fr n), LAssign (fr n) (ANew f ts) :: ls, n1)
    end.
  Fixpoint s_flat_args (l : list expr) (n : nat) : list term * list lit * nat :=
    match l with
    | [] => ([], [], n)
    | e :: l => let '(t, l1, n1) := s_flat e n in let '(ts, l2, n2) := s_flat_args l n1 in (t :: ts, l1 ++ l2, n2)
    end.
  Definition s_flat_lit (f : formula) (n : nat) : option (list lit * nat) :=
    match f with
    | FAtom p l => let '(ts, ls, n1) := s_flat_args l n in Some (LAtom (mkAtom p ts) :: ls, n1)
    | FNeg p l => let '(ts, ls, n1) := s_flat_args l n in Some (LNeg (mkAtom p ts) :: ls, n1)
    | FCons (EBin op a b) =>
        obnd (cop_of op) (fun c =>
          let '(ta, la, n1) := s_flat a n in
          let '(tb, lb, n2) := s_flat b n1 in
          Some (LBin c ta tb :: la ++ lb, n2))
    | FCons (EUn UNot a) => let '(ta, la, n1) := s_flat a n in Some (LNot ta :: la, n1)
    | _ => None
    end.
  Fixpoint s_flat_lits (l : list formula) (n : nat) : option (list lit * nat) :=
    match l with
    | [] => Some ([], n)
    | f :: l => obnd (s_flat_lit f n) (fun x => obnd (s_flat_lits l (snd x)) (fun y => Some (fst x ++ fst y, snd y)))
    end.
  (** Heads that are atoms only. *)
  Definition s_flat_head (h : fhead) : option (head * list lit * nat) :=
    match h with
    | FHAtom (p, es) => let '(ts, ls, n) := s_flat_args es 0 in Some (HAtom (mkAtom p ts), ls, n)
    | _ => None
    end.
  Fixpoint s_conj_rules (h : head) (extra : list lit) (cs : list cctx) (n : nat) : option (list rule) :=
    match cs with
    | [] => Some []
    | c :: cs =>
        obnd (s_flat_lits (c_pos c) n) (fun x => obnd (s_flat_lits (c_neg c) (snd x)) (fun y =>
          obnd (s_conj_rules h extra cs (snd y)) (fun rs => Some (mkRule h (fst x ++ fst y ++ extra) :: rs))))
    end.
  Definition s_rule_to_back (r : frule) : option (list rule) :=
    obnd (from_formula (fr_body r)) (fun cs =>
      obnd (s_flat_head (fr_head r)) (fun x => let '(h, extra, n) := x in s_conj_rules h extra cs n)).
  Definition s_compile_rule (r : frule) : option (list rule) :=
    obnd (apply_transformations r) (fun rs => obnd (oall (map s_rule_to_back rs)) (fun l => Some (concat l))).
End Stripped.

Lemma s_flat_call : forall fr f l n, s_flat fr (ECall f l) n =
  let '(ts, ls, n1) := s_flat_args fr l (S n) in (TVar (fr n), LAssign (fr n) (ACall f ts) :: ls, n1).
Proof. reflexivity. Qed.
Lemma s_flat_new : forall fr f l n, s_flat fr (ENew f l) n =
  let '(ts, ls, n1) := s_flat_args fr l (S n) in (TVar (fr n), LAssign (fr n) (ANew f ts) :: ls, n1).
Proof. reflexivity. Qed.

(** ** The compiler pads *)
Lemma shadow_incl : forall A A' x e, incl A A' -> shadow A x e -> shadow A' x e.
Proof. intros A A' x e I (left & op & t & op0 & t1 & t2 & E & J & K). exists left, op, t, op0, t1, t2. auto. Qed.
Lemma pad_incl : forall A A' b b', incl A A' -> pad A b b' -> pad A' b b'.
Proof. intros A A' b b' I H. induction H; constructor; auto. eapply shadow_incl; eauto. Qed.
Lemma pad_app : forall A b b' c c', pad A b b' -> pad A c c' -> pad A (b ++ c) (b' ++ c').
Proof. intros A b b' c c' H K. induction H; cbn [app]; auto; constructor; auto. Qed.
Lemma pad_refl : forall A b, pad A b b.
Proof. induction b; constructor; auto. Qed.
Lemma assigns_app : forall a b, assigns (a ++ b) = assigns a ++ assigns b.
Proof. intros a b. apply flat_map_app. Qed.
(** The literals of the first body are in the second one. *)
Lemma pad_in : forall A b b' l, pad A b b' -> In l b -> l <> LTrue -> In l b'.
Proof.
  intros A b b' l H. induction H as [|h b b' H IH|b b' H IH|b b' H IH|x e b b' S H IH]; intros I N; auto.
  - destruct I as [<-|I]; [left; auto|right; auto].
  - destruct I as [<-|I]; [destruct (N eq_refl)|auto].
  - right; auto.
  - right; auto.
Qed.
Lemma pad_vars : forall A b b' v, pad A b b' -> In v (flat_map lit_vars b) -> In v (flat_map lit_vars b').
Proof.
  intros A b b' v H I. apply in_flat_map in I. destruct I as (l & I & J). apply in_flat_map. exists l. split; auto. eapply pad_in; eauto. intros ->. destruct J.
Qed.

Section Padding.
  Variable fr : nat -> var.
  Definition pad_at (e : expr) : Prop := forall n t ls n', s_flat fr e n = (t, ls, n') -> exists ls', flat fr e n = (t, ls', n') /\ pad (assigns ls) ls ls'.
  Lemma pad_args0 : forall l, Forall pad_at l -> forall n ts ls n', s_flat_args fr l n = (ts, ls, n') -> exists ls', flat_args fr l n = (ts, ls', n') /\ pad (assigns ls) ls ls'.
  Proof.
    intros l F. induction F as [|e l He F IH]; intros n ts ls n' H; cbn [s_flat_args flat_args] in *.
    - injection H as <- <- <-. eexists. split; [reflexivity|]. constructor.
    - destruct (s_flat fr e n) as [[t l1] n1] eqn:Q. destruct (s_flat_args fr l n1) as [[ts' l2] n2] eqn:Q2. injection H as <- <- <-.
      destruct (He _ _ _ _ Q) as (l1' & -> & P1). destruct (IH _ _ _ _ Q2) as (l2' & -> & P2). eexists. split; [reflexivity|].
      rewrite assigns_app. apply pad_app; eapply pad_incl; eauto; [apply incl_appl|apply incl_appr]; apply incl_refl.
  Qed.
  Lemma pad_inverses : forall A left op ta tb b b', In (left, ABin op ta tb) A -> pad A b b' -> pad A b (inverses left op ta tb ++ b').
  Proof.
    intros A left op ta tb b b' I P. unfold inverses. destruct (add_sub_inv op) as [inv|]; [|exact P].
    assert (S1 : forall x t, In x (tvar ta ++ tvar tb) -> shadow A x (ABin inv (TVar left) t)) by (intros x t J; exists left, inv, t, op, ta, tb; auto).
    destruct ta as [v|c]; cbn [app].
    - apply pad_shadow; [apply S1; left; auto|]. destruct tb as [w|c]; cbn [app]; [|exact P]. apply pad_shadow; [apply S1; right; left; auto|exact P].
    - destruct tb as [w|c']; cbn [app]; [|exact P]. apply pad_shadow; [apply S1; left; auto|exact P].
  Qed.
  Lemma flat_pads : forall e, pad_at e.
  Proof.
    induction e using expr_ind2; intros n t ls n' H0.
    - injection H0 as <- <- <-. eexists. split; [reflexivity|constructor].
    - injection H0 as <- <- <-. eexists. split; [reflexivity|constructor].
    - injection H0 as <- <- <-. eexists. split; [reflexivity|constructor].
    - cbn [s_flat flat] in *. destruct (s_flat fr e1 (S n)) as [[ta la] n1] eqn:Qa. destruct (s_flat fr e2 n1) as [[tb lb] n2] eqn:Qb. injection H0 as <- <- <-.
      destruct (IHe1 _ _ _ _ Qa) as (la' & -> & P1). destruct (IHe2 _ _ _ _ Qb) as (lb' & -> & P2). eexists. split; [reflexivity|].
      cbn [assigns flat_map app]. change (flat_map (fun l => match l with LAssign v e => [(v, e)] | _ => [] end) (la ++ lb)) with (assigns (la ++ lb)). rewrite assigns_app.
      constructor. apply pad_inverses; [left; reflexivity|]. apply pad_app; eapply pad_incl; eauto; apply incl_tl; [apply incl_appl|apply incl_appr]; apply incl_refl.
    - cbn [s_flat flat] in *. destruct (s_flat fr e (S n)) as [[ta la] n1] eqn:Qa. injection H0 as <- <- <-.
      destruct (IHe _ _ _ _ Qa) as (la' & -> & P1). eexists. split; [reflexivity|]. constructor. eapply pad_incl; eauto. apply incl_tl, incl_refl.
    - cbn [s_flat flat] in *. destruct (s_flat fr e1 (S n)) as [[tc lc] n1] eqn:Qc. destruct (s_flat fr e2 n1) as [[ta la] n2] eqn:Qa. destruct (s_flat fr e3 n2) as [[tb lb] n3] eqn:Qb.
      injection H0 as <- <- <-. destruct (IHe1 _ _ _ _ Qc) as (lc' & -> & P1). destruct (IHe2 _ _ _ _ Qa) as (la' & -> & P2). destruct (IHe3 _ _ _ _ Qb) as (lb' & -> & P3).
      eexists. split; [reflexivity|]. cbn [assigns flat_map app]. change (flat_map (fun l => match l with LAssign v e => [(v, e)] | _ => [] end) (lc ++ la ++ lb)) with (assigns (lc ++ la ++ lb)).
      rewrite !assigns_app. constructor. repeat apply pad_app; eapply pad_incl; eauto; apply incl_tl; intros z Z; rewrite !in_app_iff; auto.
    - rewrite s_flat_call in H0. rewrite flat_call. destruct (s_flat_args fr l (S n)) as [[ts la] n1] eqn:Q. injection H0 as <- <- <-.
      destruct (pad_args0 H _ Q) as (la' & -> & P). eexists. split; [reflexivity|]. constructor. eapply pad_incl; eauto. apply incl_tl, incl_refl.
    - rewrite s_flat_new in H0. rewrite flat_new. destruct (s_flat_args fr l (S n)) as [[ts la] n1] eqn:Q. injection H0 as <- <- <-.
      destruct (pad_args0 H _ Q) as (la' & -> & P). eexists. split; [reflexivity|]. constructor. eapply pad_incl; eauto. apply incl_tl, incl_refl.
  Qed.
  Lemma args_pad : forall l n ts ls n', s_flat_args fr l n = (ts, ls, n') -> exists ls', flat_args fr l n = (ts, ls', n') /\ pad (assigns ls) ls ls'.
  Proof. intros l. apply pad_args0. apply Forall_forall. intros e _. apply flat_pads. Qed.
  Lemma lit_pads : forall f n ls n', s_flat_lit fr f n = Some (ls, n') -> exists ls', flat_lit fr f n = Some (ls', n') /\ pad (assigns ls) ls ls'.
  Proof.
    intros f n ls n' H. destruct f as [p l|p l|e| | |]; try discriminate H; cbn [s_flat_lit flat_lit] in *.
    - destruct (s_flat_args fr l n) as [[ts la] n1] eqn:Q. injection H as <- <-. destruct (args_pad l n Q) as (la' & -> & P). eexists. split; [reflexivity|]. constructor. exact P.
    - destruct (s_flat_args fr l n) as [[ts la] n1] eqn:Q. injection H as <- <-. destruct (args_pad l n Q) as (la' & -> & P). eexists. split; [reflexivity|]. constructor. exact P.
    - destruct e as [| | |op a b|op a| | |]; try discriminate H; [|destruct op; try discriminate H].
      + destruct (cop_of op) as [c|]; [|discriminate H]. cbn [obnd] in *. destruct (s_flat fr a n) as [[ta la] n1] eqn:Qa. destruct (s_flat fr b n1) as [[tb lb] n2] eqn:Qb. injection H as <- <-.
        destruct (flat_pads a n Qa) as (la' & -> & P1). destruct (flat_pads b n1 Qb) as (lb' & -> & P2). eexists. split; [reflexivity|]. constructor.
        change (assigns (LBin c ta tb :: la ++ lb)) with (assigns (la ++ lb)). rewrite assigns_app. apply pad_app; eapply pad_incl; eauto; [apply incl_appl|apply incl_appr]; apply incl_refl.
      + destruct (s_flat fr a n) as [[ta la] n1] eqn:Qa. injection H as <- <-. destruct (flat_pads a n Qa) as (la' & -> & P1). eexists. split; [reflexivity|]. constructor. exact P1.
  Qed.
  Lemma lits_pad : forall l n ls n', s_flat_lits fr l n = Some (ls, n') -> exists ls', flat_lits fr l n = Some (ls', n') /\ pad (assigns ls) ls ls'.
  Proof.
    induction l as [|f l IH]; intros n ls n' H; cbn [s_flat_lits flat_lits] in *; [injection H as <- <-; eexists; split; [reflexivity|constructor]|].
    destruct (s_flat_lit fr f n) as [[l1 n1]|] eqn:Q1; [|discriminate H]. cbn [obnd fst snd] in H. destruct (s_flat_lits fr l n1) as [[l2 n2]|] eqn:Q2; [|discriminate H]. injection H as <- <-.
    destruct (lit_pads f n Q1) as (l1' & -> & P1). cbn [obnd fst snd]. destruct (IH _ _ _ Q2) as (l2' & -> & P2). cbn [obnd fst snd]. eexists. split; [reflexivity|].
    rewrite assigns_app. apply pad_app; eapply pad_incl; eauto; [apply incl_appl|apply incl_appr]; apply incl_refl.
  Qed.
  Lemma conj_rules_pad : forall h extra extra' cs n rs, pad (assigns extra) extra extra' -> s_conj_rules fr h extra cs n = Some rs ->
    exists rs', conj_rules fr h extra' cs n = Some rs' /\ Forall2 padded rs rs'.
  Proof.
    intros h extra extra' cs. induction cs as [|c cs IH]; intros n rs PE H; cbn [s_conj_rules conj_rules] in *; [injection H as <-; eexists; split; [reflexivity|constructor]|].
    destruct (s_flat_lits fr (c_pos c) n) as [[lx nx]|] eqn:Qx; [|discriminate H]. cbn [obnd fst snd] in H.
    destruct (s_flat_lits fr (c_neg c) nx) as [[ly ny]|] eqn:Qy; [|discriminate H]. cbn [obnd fst snd] in H.
    destruct (s_conj_rules fr h extra cs ny) as [rs0|] eqn:Qr; [|discriminate H]. injection H as <-.
    destruct (lits_pad _ _ Qx) as (lx' & -> & P1). cbn [obnd fst snd]. destruct (lits_pad _ _ Qy) as (ly' & -> & P2). cbn [obnd fst snd]. destruct (IH _ _ PE Qr) as (rs' & -> & F).
    cbn [obnd]. eexists. split; [reflexivity|]. constructor; [|exact F]. split; [reflexivity|]. cbn [r_body]. rewrite !assigns_app.
    repeat apply pad_app; eapply pad_incl; eauto; intros z Z; rewrite !in_app_iff; auto.
  Qed.
  Lemma rule_pads : forall r rs, s_rule_to_back fr r = Some rs -> exists rs', rule_to_back fr r = Some rs' /\ Forall2 padded rs rs'.
  Proof.
    intros [hd body] rs H. unfold s_rule_to_back, rule_to_back in *. cbn [fr_body fr_head] in *. destruct (from_formula body) as [cs|]; [|discriminate H]. cbn [obnd] in *.
    destruct hd as [[p es]|l|a l]; try discriminate H. cbn [s_flat_head flat_head] in *. destruct (s_flat_args fr es 0) as [[ts ls] n] eqn:Q. cbn [obnd] in H.
    destruct (args_pad _ _ Q) as (ls' & -> & P). cbn [obnd]. eapply conj_rules_pad; eauto.
  Qed.
  (** Each rule that the compiler makes is padded. *)
  Lemma compile_pads : forall r rs, s_compile_rule fr r = Some rs -> exists rs', compile_rule fr r = Some rs' /\ Forall2 padded rs rs'.
  Proof.
    intros r rs H. unfold s_compile_rule, compile_rule in *. destruct (apply_transformations r) as [l|]; [|discriminate H]. cbn [obnd] in *.
    revert rs H. induction l as [|r1 l IH]; intros rs H; cbn [map oall] in *; [injection H as <-; eexists; split; [reflexivity|constructor]|].
    destruct (s_rule_to_back fr r1) as [rs1|] eqn:Q1; [|discriminate H]. cbn [obnd] in H. destruct (oall (map (s_rule_to_back fr) l)) as [rs2|] eqn:Q2; [|discriminate H]. cbn [obnd] in H. injection H as <-.
    destruct (rule_pads _ Q1) as (rs1' & -> & F1). cbn [obnd]. destruct (IH _ eq_refl) as (rs2' & E & F2). destruct (oall (map (rule_to_back fr) l)) as [x|]; [|discriminate E]. cbn [obnd] in E |- *. injection E as E.
    eexists. split; [reflexivity|]. cbn [concat]. rewrite E. apply Forall2_app; auto.
  Qed.
End Padding.

(** ** The meaning *)
(** The branches of conditionals are variables and constants. *)
Definition is_simple (e : expr) : bool := match e with EVar _ | EConst _ => true | _ => false end.
Fixpoint plain_ite (e : expr) : bool :=
  match e with
  | EVar _ | EWild | EConst _ => true
  | EBin _ a b => plain_ite a && plain_ite b
  | EUn _ a => plain_ite a
  | EIte c a b => plain_ite c && is_simple a && is_simple b
  | ECall _ l | ENew _ l => forallb plain_ite l
  end.
Lemma simple_value : forall E s e, is_simple e = true -> exists r, has_value E s e r.
Proof. intros E s e H. destruct e; try discriminate H; eexists; reflexivity. Qed.

Section Meaning.
  Variable fr : nat -> var.
  Hypothesis fr_inj : forall i j, fr i = fr j -> i = j.
  Variables (B : benv) (g : registry) (X M : interp).
  Variable V : var -> Prop.
  Hypothesis fresh : forall v i, V v -> v <> fr i.
  Local Notation within := (FlatFacts.within fr V).
  Local Notation ext := (FlatFacts.ext fr).
  Local Notation sat := (FlatFacts.sat B g X M).
  Local Notation ext_sat := (@FlatFacts.ext_sat fr fr_inj B g X M V fresh _ _ _ _ _ _ _).
  Local Notation ext_agree := (@FlatFacts.ext_agree fr fr_inj V fresh _ _ _ _ _ _ _).
  Lemma s_flat_vars : forall e n t ls n', (forall v, In v (expr_vars e) -> V v) -> s_flat fr e n = (t, ls, n') ->
    n <= n' /\ within n n' (tvar t) /\ within n n' (flat_map lit_vars ls).
  Proof.
    intros e n t ls n' Hv H. destruct (flat_pads fr e n H) as (ls' & Q & P). destruct (@FlatFacts.flat_vars fr fr_inj V e n _ _ _ Hv Q) as (L & W & W').
    split; auto. split; auto. intros v I. apply W'. eapply pad_vars; eauto.
  Qed.
  Lemma s_flat_args_vars : forall l n ts ls n', (forall v, In v (flat_map expr_vars l) -> V v) -> s_flat_args fr l n = (ts, ls, n') ->
    n <= n' /\ within n n' (flat_map tvar ts) /\ within n n' (flat_map lit_vars ls).
  Proof.
    intros e n t ls n' Hv H. destruct (args_pad fr e n H) as (ls' & Q & P). destruct (@FlatFacts.flat_args_vars fr fr_inj V e n _ _ _ Hv Q) as (L & W & W').
    split; auto. split; auto. intros v I. apply W'. eapply pad_vars; eauto.
  Qed.
  Lemma s_lit_flat_vars : forall f n ls n', (forall v, In v (form_vars f) -> V v) -> s_flat_lit fr f n = Some (ls, n') -> n <= n' /\ within n n' (flat_map lit_vars ls).
  Proof.
    intros e n ls n' Hv H. destruct (lit_pads fr e n H) as (ls' & Q & P). destruct (@FlatFacts.lit_flat_vars fr fr_inj V e n _ _ Hv Q) as (L & W).
    split; auto. intros v I. apply W. eapply pad_vars; eauto.
  Qed.
  Lemma s_lits_flat_vars : forall l n ls n', (forall f v, In f l -> In v (form_vars f) -> V v) -> s_flat_lits fr l n = Some (ls, n') -> n <= n' /\ within n n' (flat_map lit_vars ls).
  Proof.
    intros e n ls n' Hv H. destruct (lits_pad fr e n H) as (ls' & Q & P). destruct (@FlatFacts.lits_flat_vars fr fr_inj V e n _ _ Hv Q) as (L & W).
    split; auto. intros v I. apply W. eapply pad_vars; eauto.
  Qed.
  Lemma s_fholds_lit_local : forall s s' l n x, s_flat_lits fr l n = Some x -> forall f, In f l -> agree (form_vars f) s s' -> fholds B g X M s f -> fholds B g X M s' f.
  Proof.
    intros s s' l n [ls n'] H. destruct (lits_pad fr l n H) as (ls' & Q & P). eapply fholds_lit_local; eauto.
  Qed.

  (** ** The numbered variables have the values of the expressions *)
  Definition s_flat_sound_at (e : expr) : Prop := forall s n t ls n', s_flat fr e n = (t, ls, n') -> sat s ls -> has_value (b_env B) s e (tval s t).
  Lemma s_flat_args_sound0 : forall l, Forall s_flat_sound_at l -> forall s n ts ls n', s_flat_args fr l n = (ts, ls, n') -> sat s ls -> have_values (b_env B) s l (tvals s ts).
  Proof.
    intros l F. induction F as [|e l He F IH]; intros s n ts ls n' H S0; cbn [s_flat_args] in H.
    - injection H as <- <- <-. constructor.
    - destruct (s_flat fr e n) as [[t l1] n1] eqn:Q. destruct (s_flat_args fr l n1) as [[ts' l2] n2] eqn:Q2. injection H as <- <- <-.
      apply sat_app_inv in S0. destruct S0 as [S1 S2]. constructor; [eapply He; eauto|]. eapply IH; eauto.
  Qed.
  Lemma s_flat_sound : forall e, s_flat_sound_at e.
  Proof.
    induction e using expr_ind2; intros s n t ls n' H0 S0.
    - injection H0 as <- <- <-. reflexivity.
    - exact Logic.I.
    - injection H0 as <- <- <-. reflexivity.
    - cbn [s_flat] in H0. destruct (s_flat fr e1 (S n)) as [[ta la] n1] eqn:Qa. destruct (s_flat fr e2 n1) as [[tb lb] n2] eqn:Qb. injection H0 as <- <- <-.
      change (sat s ([LAssign (fr n) (ABin op ta tb)] ++ la ++ lb)) in S0.
      apply sat_app_inv in S0. destruct S0 as [S1 S0]. apply sat_app_inv in S0. destruct S0 as [S2 S3].
      exists (tval s ta), (tval s tb). split; [eapply IHe1; eauto|]. split; [eapply IHe2; eauto|]. exact (S1 _ (or_introl eq_refl)).
    - cbn [s_flat] in H0. destruct (s_flat fr e (S n)) as [[ta la] n1] eqn:Qa. injection H0 as <- <- <-.
      change (sat s ([LAssign (fr n) (AUn op ta)] ++ la)) in S0. apply sat_app_inv in S0. destruct S0 as [S1 S2].
      exists (tval s ta). split; [eapply IHe; eauto|]. exact (S1 _ (or_introl eq_refl)).
    - cbn [s_flat] in H0. destruct (s_flat fr e1 (S n)) as [[tc lc] n1] eqn:Qc. destruct (s_flat fr e2 n1) as [[ta la] n2] eqn:Qa. destruct (s_flat fr e3 n2) as [[tb lb] n3] eqn:Qb.
      injection H0 as <- <- <-.
      change (sat s ([LAssign (fr n) (AIte tc ta tb)] ++ lc ++ la ++ lb)) in S0.
      apply sat_app_inv in S0. destruct S0 as [S1 S0]. apply sat_app_inv in S0. destruct S0 as [S2 S0]. apply sat_app_inv in S0. destruct S0 as [S3 S4].
      pose proof (S1 _ (or_introl eq_refl)) as K. cbn in K. pose proof (IHe1 _ _ _ _ _ Qc S2) as Hc. pose proof (IHe2 _ _ _ _ _ Qa S3) as Ha. pose proof (IHe3 _ _ _ _ _ Qb S4) as Hb.
      cbn [has_value tval]. destruct (tval s tc) eqn:T; try discriminate K. destruct b; injection K as K; rewrite <- K; [left|right]; auto.
    - rewrite s_flat_call in H0. destruct (s_flat_args fr l (S n)) as [[ts la] n1] eqn:Q. injection H0 as <- <- <-.
      change (sat s ([LAssign (fr n) (ACall f ts)] ++ la)) in S0. apply sat_app_inv in S0. destruct S0 as [S1 S2]. apply has_value_call.
      exists (tvals s ts). split; [eapply s_flat_args_sound0; eauto|]. exact (S1 _ (or_introl eq_refl)).
    - rewrite s_flat_new in H0. destruct (s_flat_args fr l (S n)) as [[ts la] n1] eqn:Q. injection H0 as <- <- <-.
      change (sat s ([LAssign (fr n) (ANew f ts)] ++ la)) in S0. apply sat_app_inv in S0. destruct S0 as [S1 S2]. apply has_value_new.
      exists (tvals s ts). split; [eapply s_flat_args_sound0; eauto|]. pose proof (S1 _ (or_introl eq_refl)) as K. cbn in K. injection K as K. symmetry. exact K.
  Qed.
  Lemma s_flat_args_sound : forall l s n ts ls n', s_flat_args fr l n = (ts, ls, n') -> sat s ls -> have_values (b_env B) s l (tvals s ts).
  Proof. intros l. apply s_flat_args_sound0. apply Forall_forall. intros e _. apply s_flat_sound. Qed.

  Definition s_flat_complete_at (e : expr) : Prop := forall s n t ls n' r, (forall v, In v (expr_vars e) -> V v) -> s_flat fr e n = (t, ls, n') ->
    plain_ite e = true -> has_value (b_env B) s e r -> exists s', ext n n' s s' /\ sat s' ls /\ tval s' t = r.
  Lemma s_flat_args_complete0 : forall l, Forall s_flat_complete_at l -> forall s n ts ls n' rs, (forall v, In v (flat_map expr_vars l) -> V v) -> s_flat_args fr l n = (ts, ls, n') ->
    (forall e, In e l -> plain_ite e = true) -> have_values (b_env B) s l rs -> exists s', ext n n' s s' /\ sat s' ls /\ tvals s' ts = rs.
  Proof.
    intros l F. induction F as [|e l He F IH]; intros s n ts ls n' rs Hv H R K; cbn [s_flat_args] in H.
    - injection H as <- <- <-. inversion K; subst. exists s. split; [apply ext_refl|]. split; [intros x []|reflexivity].
    - destruct (s_flat fr e n) as [[t l1] n1] eqn:Q. destruct (s_flat_args fr l n1) as [[ts' l2] n2] eqn:Q2. injection H as <- <- <-.
      inversion K as [|? r ? rs' K1 K2]; subst.
      assert (V1 : forall v, In v (expr_vars e) -> V v) by (intros v I; apply Hv; cbn; apply in_or_app; auto).
      assert (V2 : forall v, In v (flat_map expr_vars l) -> V v) by (intros v I; apply Hv; cbn; apply in_or_app; auto).
      destruct (He s n t l1 n1 r V1 Q (R e (or_introl eq_refl)) K1) as (s1 & X1 & S1 & T1).
      destruct (s_flat_vars e n V1 Q) as (L1 & W1 & W1'). destruct (s_flat_args_vars l n1 V2 Q2) as (L2 & W2 & W2').
      destruct (IH s1 n1 ts' l2 n2 rs' V2 Q2) as (s2 & X2 & S2 & T2).
      { intros x I. apply R. right; auto. }
      { eapply values_local; [|exact K2]. eapply source_agree; eauto. }
      exists s2. split; [eapply ext_trans; eauto|]. split.
      + apply sat_app; auto. exact (ext_sat W1' X2 (or_introl (le_n _)) S1).
      + cbn [tvals map]. f_equal; auto. rewrite <- T1. symmetry. apply tval_agree. exact (ext_agree W1 X2 (or_introl (le_n _))).
  Qed.
  Lemma s_flat_complete : forall e, s_flat_complete_at e.
  Proof.
    induction e using expr_ind2; intros s n t ls n' r Hv H0 R K; pose proof (s_flat_vars _ n Hv H0) as (_ & W0 & W0'); cbn [expr_vars] in Hv.
    - injection H0 as <- <- <-. exists s. split; [apply ext_refl|]. split; [intros x []|]. symmetry. exact K.
    - injection H0 as <- <- <-. exists (upd s (fr n) r). split; [apply upd_ext; auto|]. split; [intros x []|]. apply upd_same.
    - injection H0 as <- <- <-. exists s. split; [apply ext_refl|]. split; [intros x []|]. symmetry. exact K.
    - cbn [s_flat] in H0. destruct (s_flat fr e1 (S n)) as [[ta la] n1] eqn:Qa. destruct (s_flat fr e2 n1) as [[tb lb] n2] eqn:Qb. injection H0 as <- <- <-.
      assert (V1 : forall v, In v (expr_vars e1) -> V v) by (intros v I; apply Hv, in_or_app; auto).
      assert (V2 : forall v, In v (expr_vars e2) -> V v) by (intros v I; apply Hv, in_or_app; auto).
      cbn [plain_ite] in R. apply andb_true_iff in R. destruct R as [R1 R2]. destruct K as (x & y & K1 & K2 & Kv).
      destruct (s_flat_vars e1 (S n) V1 Qa) as (L1 & W1 & W1'). destruct (s_flat_vars e2 n1 V2 Qb) as (L2 & W2 & W2').
      destruct (IHe1 s (S n) ta la n1 x V1 Qa R1 K1) as (s1 & X1 & S1 & T1).
      destruct (IHe2 s1 n1 tb lb n2 y V2 Qb) as (s2 & X2 & S2 & T2).
      { auto. }
      { eapply value_local; [|exact K2]. eapply source_agree; eauto. }
      set (s3 := upd s2 (fr n) r). pose proof (@upd_ext1 fr n s2 r) as X3. fold s3 in X3. assert (Y : s3 (fr n) = r) by apply upd_same.
      assert (X12 : ext (S n) n2 s s2) by (eapply ext_trans; eauto).
      assert (A1 : tval s3 ta = x). { rewrite <- T1. transitivity (tval s2 ta); symmetry; apply tval_agree.
        - exact (ext_agree W1 X3 (or_intror (le_n _))).
        - exact (ext_agree W1 X2 (or_introl (le_n _))). }
      assert (A2 : tval s3 tb = y). { rewrite <- T2. symmetry; apply tval_agree. exact (ext_agree W2 X3 (or_intror L1)). }
      assert (S3 : sat s3 (la ++ lb)).
      { apply sat_app; [exact (ext_sat W1' X3 (or_intror (le_n _)) (ext_sat W1' X2 (or_introl (le_n _)) S1))|exact (ext_sat W2' X3 (or_intror L1) S2)]. }
      assert (X13 : ext n n2 s s3). { intros v F. rewrite X3, X12; auto; intros i L; apply F; lia. }
      exists s3. split; auto. split; [|exact Y]. intros l [<-|I]; [cbn; rewrite A1, A2, Y; exact Kv|]. apply S3; auto.
    - cbn [s_flat] in H0. destruct (s_flat fr e (S n)) as [[ta la] n1] eqn:Qa. injection H0 as <- <- <-.
      rename R into R1. destruct K as (x & K1 & Kv). destruct (s_flat_vars e (S n) Hv Qa) as (L1 & W1 & W1').
      destruct (IHe s (S n) ta la n1 x Hv Qa R1 K1) as (s1 & X1 & S1 & T1).
      set (s3 := upd s1 (fr n) r). pose proof (@upd_ext1 fr n s1 r) as X3. fold s3 in X3. assert (Y : s3 (fr n) = r) by apply upd_same.
      exists s3. split; [intros v F; rewrite X3, X1; auto; intros i L; apply F; lia|]. split; [|exact Y]. intros l [<-|I].
      + cbn. rewrite Y, <- Kv, <- T1. f_equal. symmetry. apply tval_agree. exact (ext_agree W1 X3 (or_intror (le_n _))).
      + revert l I. exact (ext_sat W1' X3 (or_intror (le_n _)) S1).
    - cbn [s_flat] in H0. destruct (s_flat fr e1 (S n)) as [[tc lc] n1] eqn:Qc. destruct (s_flat fr e2 n1) as [[ta la] n2] eqn:Qa. destruct (s_flat fr e3 n2) as [[tb lb] n3] eqn:Qb.
      injection H0 as <- <- <-.
      assert (V1 : forall v, In v (expr_vars e1) -> V v) by (intros v I; apply Hv; rewrite !in_app_iff; auto).
      assert (V2 : forall v, In v (expr_vars e2) -> V v) by (intros v I; apply Hv; rewrite !in_app_iff; auto).
      assert (V3 : forall v, In v (expr_vars e3) -> V v) by (intros v I; apply Hv; rewrite !in_app_iff; auto).
      cbn [plain_ite] in R. rewrite !andb_true_iff in R. destruct R as [[R1 R2'] R3']. assert (R2 : plain_ite e2 = true) by (destruct e2; auto; discriminate R2'). assert (R3 : plain_ite e3 = true) by (destruct e3; auto; discriminate R3').
      destruct (s_flat_vars e1 (S n) V1 Qc) as (L1 & W1 & W1'). destruct (s_flat_vars e2 n1 V2 Qa) as (L2 & W2 & W2'). destruct (s_flat_vars e3 n2 V3 Qb) as (L3 & W3 & W3').
      assert (E0 : exists c x y, has_value (b_env B) s e1 (VBool c) /\ has_value (b_env B) s e2 x /\ has_value (b_env B) s e3 y /\ r = (if c then x else y)).
      { destruct (simple_value (b_env B) s e2 R2') as (x & Hx). destruct (simple_value (b_env B) s e3 R3') as (y & Hy). destruct K as [[K1 K2]|[K1 K2]].
        - exists true, r, y. auto.
        - exists false, x, r. auto. }
      destruct E0 as (c & x & y & K1 & K2 & K3 & Er).
      destruct (IHe1 s (S n) tc lc n1 (VBool c) V1 Qc R1 K1) as (s1 & X1 & S1 & T1).
      destruct (IHe2 s1 n1 ta la n2 x V2 Qa) as (s2 & X2 & S2 & T2).
      { auto. }
      { eapply value_local; [|exact K2]. eapply source_agree; eauto. }
      assert (X12 : ext (S n) n2 s s2) by (eapply ext_trans; eauto).
      destruct (IHe3 s2 n2 tb lb n3 y V3 Qb) as (s3 & X3 & S3 & T3).
      { auto. }
      { eapply value_local; [|exact K3]. eapply source_agree; eauto. }
      set (s4 := upd s3 (fr n) r). pose proof (@upd_ext1 fr n s3 r) as X4. fold s4 in X4. assert (Y : s4 (fr n) = r) by apply upd_same.
      assert (X23 : ext n1 n3 s1 s3) by (eapply ext_trans; eauto).
      assert (Z1 : sat s3 lc) by exact (ext_sat W1' X23 (or_introl (le_n _)) S1). assert (Z2 : sat s3 la) by exact (ext_sat W2' X3 (or_introl (le_n _)) S2).
      assert (N2 : n3 <= n \/ S n <= n2) by (right; lia).
      assert (A1 : tval s4 tc = VBool c).
      { rewrite <- T1. transitivity (tval s3 tc); symmetry; apply tval_agree; [exact (ext_agree W1 X4 (or_intror (le_n _)))|exact (ext_agree W1 X23 (or_introl (le_n _)))]. }
      assert (A2 : tval s4 ta = x).
      { rewrite <- T2. transitivity (tval s3 ta); symmetry; apply tval_agree; [exact (ext_agree W2 X4 (or_intror L1))|exact (ext_agree W2 X3 (or_introl (le_n _)))]. }
      assert (A3 : tval s4 tb = y) by (rewrite <- T3; symmetry; apply tval_agree; exact (ext_agree W3 X4 N2)).
      exists s4. split; [intros v F; rewrite X4, X3, X12; auto; intros i L; apply F; lia|]. split; [|exact Y]. intros l [<-|I].
      + cbn. rewrite A1, A2, A3, Y, Er. destruct c; reflexivity.
      + revert l I. repeat apply sat_app.
        * exact (ext_sat W1' X4 (or_intror (le_n _)) Z1).
        * exact (ext_sat W2' X4 (or_intror L1) Z2).
        * exact (ext_sat W3' X4 N2 S3).
    - cbn [plain_ite] in R. rewrite forallb_forall in R. apply has_value_call in K. destruct K as (vs & K & Kv).
      rewrite s_flat_call in H0. destruct (s_flat_args fr l (S n)) as [[ts la] n1] eqn:Q. injection H0 as <- <- <-.
      destruct (s_flat_args_complete0 H (S n) Hv Q R K) as (s1 & X1 & S1 & T1). destruct (s_flat_args_vars l (S n) Hv Q) as (L & W & W').
      set (s3 := upd s1 (fr n) r). pose proof (@upd_ext1 fr n s1 r) as X3. fold s3 in X3. assert (Y : s3 (fr n) = r) by apply upd_same.
      exists s3. split; [intros v F; rewrite X3, X1; auto; intros i Li; apply F; lia|]. split; [|exact Y]. intros x [<-|I].
      + cbn. rewrite Y, <- Kv, <- T1. f_equal. symmetry. apply tvals_agree. exact (ext_agree W X3 (or_intror (le_n _))).
      + revert x I. exact (ext_sat W' X3 (or_intror (le_n _)) S1).
    - cbn [plain_ite] in R. rewrite forallb_forall in R. apply has_value_new in K. destruct K as (vs & K & Kv).
      rewrite s_flat_new in H0. destruct (s_flat_args fr l (S n)) as [[ts la] n1] eqn:Q. injection H0 as <- <- <-.
      destruct (s_flat_args_complete0 H (S n) Hv Q R K) as (s1 & X1 & S1 & T1). destruct (s_flat_args_vars l (S n) Hv Q) as (L & W & W').
      set (s3 := upd s1 (fr n) r). pose proof (@upd_ext1 fr n s1 r) as X3. fold s3 in X3. assert (Y : s3 (fr n) = r) by apply upd_same.
      exists s3. split; [intros v F; rewrite X3, X1; auto; intros i Li; apply F; lia|]. split; [|exact Y]. intros x [<-|I].
      + cbn. rewrite Y, Kv, <- T1. do 3 f_equal. symmetry. apply tvals_agree. exact (ext_agree W X3 (or_intror (le_n _))).
      + revert x I. exact (ext_sat W' X3 (or_intror (le_n _)) S1).
  Qed.
  Lemma s_flat_args_complete : forall l s n ts ls n' rs, (forall v, In v (flat_map expr_vars l) -> V v) -> s_flat_args fr l n = (ts, ls, n') ->
    (forall e, In e l -> plain_ite e = true) -> have_values (b_env B) s l rs -> exists s', ext n n' s s' /\ sat s' ls /\ tvals s' ts = rs.
  Proof. intros l. apply s_flat_args_complete0. apply Forall_forall. intros e _. apply s_flat_complete. Qed.

  (** ** Literals *)
  Lemma s_lit_flat_sound : forall s f n ls n', s_flat_lit fr f n = Some (ls, n') -> neg_wild_free f = true -> sat s ls -> fholds B g X M s f.
  Proof.
    intros s f n ls n' H W S0. destruct f as [p l|p l|e| | |]; try discriminate H; cbn [s_flat_lit] in H.
    - destruct (s_flat_args fr l n) as [[ts la] n1] eqn:Q. injection H as <- <-. exists (tvals s ts). split.
      + eapply s_flat_args_sound; eauto. intros x I. apply S0. right; auto.
      + exact (S0 _ (or_introl eq_refl)).
    - destruct (s_flat_args fr l n) as [[ts la] n1] eqn:Q. injection H as <- <-. exists (map Some (tvals s ts)). split.
      + apply values_patterns; auto. eapply s_flat_args_sound; eauto. intros x I. apply S0. right; auto.
      + intros us F. apply fits_some in F. subst us. pose proof (S0 _ (or_introl eq_refl)) as K. cbn in K. unfold tuples. destruct (g_foreign g p); exact K.
    - destruct e as [| | |op a b|op a| | |]; try discriminate H; [|destruct op; try discriminate H].
      + destruct (cop_of op) as [c|] eqn:C; [|discriminate H]. cbn [obnd] in H. destruct (s_flat fr a n) as [[ta la] n1] eqn:Qa. destruct (s_flat fr b n1) as [[tb lb] n2] eqn:Qb. injection H as <- <-.
        cbn. rewrite C. exists (tval s ta), (tval s tb). split; [|split; [|exact (S0 _ (or_introl eq_refl))]].
        * eapply s_flat_sound; eauto. intros x I. apply S0. right. apply in_or_app; auto.
        * eapply s_flat_sound; eauto. intros x I. apply S0. right. apply in_or_app; auto.
      + destruct (s_flat fr a n) as [[ta la] n1] eqn:Qa. injection H as <- <-. pose proof (S0 _ (or_introl eq_refl)) as K. cbn in K. cbn. rewrite <- K.
        eapply s_flat_sound; eauto. intros x I. apply S0. right; auto.
  Qed.
  Lemma s_lit_flat_complete : forall s f n ls n', (forall v, In v (form_vars f) -> V v) -> s_flat_lit fr f n = Some (ls, n') -> neg_wild_free f = true ->
    (forall e, In e (fexprs f) -> plain_ite e = true) -> fholds B g X M s f -> exists s', ext n n' s s' /\ sat s' ls.
  Proof.
    intros s f n ls n' Hv H W R K. destruct f as [p l|p l|e| | |]; try discriminate H; cbn [s_flat_lit form_vars fexprs] in *.
    - destruct (s_flat_args fr l n) as [[ts la] n1] eqn:Q. injection H as <- <-. destruct K as (vs & K1 & K2).
      destruct (@s_flat_args_complete l _ n _ _ _ _ Hv Q R K1) as (s' & X1 & S1 & T1). exists s'. split; auto. intros x [<-|I]; auto. cbn [lit_sat other_sat a_pred a_args]. rewrite T1. exact K2.
    - destruct (s_flat_args fr l n) as [[ts la] n1] eqn:Q. injection H as <- <-. destruct K as (ws & K1 & K2). destruct (patterns_values W K1) as (vs & -> & K3).
      destruct (@s_flat_args_complete l _ n _ _ _ _ Hv Q R K3) as (s' & X1 & S1 & T1). exists s'. split; auto. intros x [<-|I]; auto. pose proof (K2 vs (fits_refl vs)) as K4. cbn [lit_sat other_sat a_pred a_args]. rewrite T1.
      unfold tuples in K4. destruct (g_foreign g p); exact K4.
    - destruct e as [| | |op a b|op a| | |]; try discriminate H; [|destruct op; try discriminate H].
      + cbn in K. destruct (cop_of op) as [c|] eqn:C; [|discriminate H]. cbn [obnd] in H. destruct (s_flat fr a n) as [[ta la] n1] eqn:Qa. destruct (s_flat fr b n1) as [[tb lb] n2] eqn:Qb. injection H as <- <-.
        destruct K as (x & y & K1 & K2 & K3). cbn [expr_vars cons_args] in *.
        assert (V1 : forall v, In v (expr_vars a) -> V v) by (intros v I; apply Hv, in_or_app; auto). assert (V2 : forall v, In v (expr_vars b) -> V v) by (intros v I; apply Hv, in_or_app; auto).
        destruct (s_flat_vars a n V1 Qa) as (L1 & W1 & W1'). destruct (s_flat_vars b n1 V2 Qb) as (L2 & W2 & W2').
        destruct (@s_flat_complete a _ n _ _ _ _ V1 Qa (R a (or_introl eq_refl)) K1) as (s1 & X1 & S1 & T1).
        destruct (@s_flat_complete b s1 n1 _ _ _ y V2 Qb) as (s2 & X2 & S2 & T2).
        { apply R. right; left; auto. }
        { eapply value_local; [|exact K2]. eapply source_agree; eauto. }
        assert (T1' : tval s2 ta = x) by (rewrite <- T1; symmetry; apply tval_agree; exact (ext_agree W1 X2 (or_introl (le_n _)))).
        exists s2. split; [eapply ext_trans; eauto|]. intros l [<-|I]; [cbn; rewrite T1', T2; exact K3|].
        revert l I. apply sat_app; auto. exact (ext_sat W1' X2 (or_introl (le_n _)) S1).
      + cbn in K. destruct (s_flat fr a n) as [[ta la] n1] eqn:Qa. injection H as <- <-. destruct (@s_flat_complete a _ n _ _ _ _ Hv Qa (R a (or_introl eq_refl)) K) as (s1 & X1 & S1 & T1).
        exists s1. split; auto. intros l [<-|I]; auto.
  Qed.

  Lemma s_lits_flat_sound : forall s l n ls n', s_flat_lits fr l n = Some (ls, n') -> forallb neg_wild_free l = true -> sat s ls -> forall f, In f l -> fholds B g X M s f.
  Proof.
    induction l as [|f l IH]; intros n ls n' H W S0 h I; [destruct I|]. cbn [s_flat_lits] in H. cbn in W. apply andb_true_iff in W. destruct W as [Wf Wl].
    destruct (s_flat_lit fr f n) as [[l1 n1]|] eqn:Q1; [|discriminate H]. cbn [obnd fst snd] in H. destruct (s_flat_lits fr l n1) as [[l2 n2]|] eqn:Q2; [|discriminate H]. injection H as <- <-.
    apply sat_app_inv in S0. destruct S0 as [S1 S2]. destruct I as [<-|I]; [eapply s_lit_flat_sound; eauto|]. eapply IH; eauto.
  Qed.
  Lemma s_lits_flat_complete : forall l s n ls n', (forall f v, In f l -> In v (form_vars f) -> V v) -> s_flat_lits fr l n = Some (ls, n') -> forallb neg_wild_free l = true ->
    (forall f e, In f l -> In e (fexprs f) -> plain_ite e = true) -> (forall f, In f l -> fholds B g X M s f) -> exists s', ext n n' s s' /\ sat s' ls.
  Proof.
    induction l as [|f l IH]; intros s n ls n' Hv H W R K; cbn [s_flat_lits] in H.
    - injection H as <- <-. exists s. split; [apply ext_refl|intros x []].
    - cbn in W. apply andb_true_iff in W. destruct W as [Wf Wl].
      destruct (s_flat_lit fr f n) as [[l1 n1]|] eqn:Q1; [|discriminate H]. cbn [obnd fst snd] in H. destruct (s_flat_lits fr l n1) as [[l2 n2]|] eqn:Q2; [|discriminate H]. injection H as <- <-. cbn [fst snd].
      assert (V1 : forall v, In v (form_vars f) -> V v) by (intros v; apply Hv; left; auto). assert (V2 : forall h v, In h l -> In v (form_vars h) -> V v) by (intros h v I; apply Hv; right; auto).
      destruct (s_lit_flat_vars f n V1 Q1) as (L1 & W1). destruct (s_lits_flat_vars l n1 V2 Q2) as (L2 & W2).
      destruct (@s_lit_flat_complete _ f n _ _ V1 Q1 Wf (fun e => R f e (or_introl eq_refl)) (K f (or_introl eq_refl))) as (s1 & X1 & S1).
      destruct (IH s1 n1 l2 n2) as (s2 & X2 & S2); auto.
      { intros h e I J. apply (R h); auto. right; auto. }
      { intros h I. eapply (s_fholds_lit_local (s := s) l n1 Q2); [exact I| |apply K; right; auto]. eapply source_agree; eauto. }
      exists s2. split; [eapply ext_trans; eauto|]. apply sat_app; auto. exact (ext_sat W1 X2 (or_introl (le_n _)) S1).
  Qed.
End Meaning.

(** ** Rules *)
Fixpoint form_ite (f : formula) : bool :=
  match f with
  | FAtom _ l | FNeg _ l => forallb plain_ite l
  | FCons e => forallb plain_ite (cons_args e)
  | FConj l | FDisj l => forallb form_ite l
  | FImp a b => form_ite a && form_ite b
  end.
Lemma part_ite : forall l f, part l f -> form_ite f = true -> form_ite l = true.
Proof. intros l f H. induction H; intros N; auto; cbn [form_ite] in N; rewrite forallb_forall in N; auto. Qed.
Lemma fexprs_ite : forall f e, form_ite f = true -> In e (fexprs f) -> plain_ite e = true.
Proof. intros f e H I. destruct f; cbn [fexprs form_ite] in *; try contradiction; rewrite forallb_forall in H; auto. Qed.

Section StrippedRules.
  Variable fr : nat -> var.
  Variables (B : benv) (g : registry) (X M : interp).
  Lemma s_conj_rules_in : forall h extra cs n rs, s_conj_rules fr h extra cs n = Some rs ->
    forall r, In r rs -> exists c m x y, In c cs /\ s_flat_lits fr (c_pos c) m = Some x /\ s_flat_lits fr (c_neg c) (snd x) = Some y /\ r = mkRule h (fst x ++ fst y ++ extra).
  Proof.
    intros h extra. induction cs as [|c cs IH]; intros n rs H r I; cbn [s_conj_rules] in H; [injection H as <-; destruct I|].
    destruct (s_flat_lits fr (c_pos c) n) as [x|] eqn:Qx; [|discriminate H]. cbn [obnd] in H. destruct (s_flat_lits fr (c_neg c) (snd x)) as [y|] eqn:Qy; [|discriminate H]. cbn [obnd] in H.
    destruct (s_conj_rules fr h extra cs (snd y)) as [rs'|] eqn:Qr; [|discriminate H]. cbn [obnd] in H. injection H as <-. destruct I as [<-|I].
    - exists c, n, x, y. repeat split; auto. left; auto.
    - destruct (IH _ _ Qr r I) as (c' & m & x' & y' & I1 & I2 & I3 & I4). exists c', m, x', y'. repeat split; auto. right; auto.
  Qed.
  Hypothesis fr_inj : forall i j, fr i = fr j -> i = j.
  Lemma s_conj_rules_out : forall h extra cs n rs, s_conj_rules fr h extra cs n = Some rs ->
    forall c, In c cs -> exists m x y, n <= m /\ s_flat_lits fr (c_pos c) m = Some x /\ s_flat_lits fr (c_neg c) (snd x) = Some y /\ In (mkRule h (fst x ++ fst y ++ extra)) rs.
  Proof.
    intros h extra. induction cs as [|c cs IH]; intros n rs H c0 I; cbn [s_conj_rules] in H; [destruct I|].
    destruct (s_flat_lits fr (c_pos c) n) as [x|] eqn:Qx; [|discriminate H]. cbn [obnd] in H. destruct (s_flat_lits fr (c_neg c) (snd x)) as [y|] eqn:Qy; [|discriminate H]. cbn [obnd] in H.
    destruct (s_conj_rules fr h extra cs (snd y)) as [rs'|] eqn:Qr; [|discriminate H]. cbn [obnd] in H. injection H as <-. destruct I as [<-|I].
    - exists n, x, y. repeat split; auto. left; auto.
    - destruct (IH _ _ Qr c0 I) as (m & x' & y' & L & I2 & I3 & I4). exists m, x', y'. repeat split; auto; [|right; auto].
      assert (G : forall l k z, s_flat_lits fr l k = Some z -> k <= snd z).
      { intros l k [zl zn] Z. destruct (s_lits_flat_vars fr fr_inj (fun _ => True) l k (fun _ _ _ _ => Logic.I) Z); auto. }
      pose proof (G _ _ _ Qx). pose proof (G _ _ _ Qy). lia.
  Qed.
End StrippedRules.

Lemma s_rule_sound : forall B g X M fr r rs, full (fr_body r) = true -> neg_wild_free (fr_body r) = true -> s_rule_to_back fr r = Some rs ->
  forall r' p t, In r' rs -> head_consequence B g X M r' p t -> front_consequence B g X M r p t.
Proof.
  intros B g X M fr [hd body] rs F N H r' p t I (s & a & S0 & Ia & -> & ->). cbn [fr_body fr_head] in *. unfold s_rule_to_back in H. cbn [fr_body fr_head] in H.
  destruct (from_formula body) as [cs|] eqn:D; [|discriminate H]. cbn [obnd] in H. destruct hd as [[q es]|l|x l]; try discriminate H. cbn [s_flat_head] in H.
  destruct (s_flat_args fr es 0) as [[ts extra] n] eqn:Qh. cbn [obnd] in H.
  destruct (@s_conj_rules_in fr (HAtom (mkAtom q ts)) extra cs n rs H r' I) as (c & m & x & y & Ic & Qx & Qy & ->). cbn [r_body r_head] in *. destruct x as [lx nx], y as [ly ny]. cbn [fst snd] in *.
  assert (SS : sat B g X M s (lx ++ ly ++ extra)) by exact S0. apply sat_app_inv in SS. destruct SS as [Sx SS]. apply sat_app_inv in SS. destruct SS as [Sy Se].
  assert (NW : forall l, In l (clits c) -> neg_wild_free l = true) by (intros l J; eapply part_neg; [eapply dnf_part; eauto|auto]).
  destruct Ia as [<-|[]]. exists s, (q, es). split; [|split; [left; auto|split; auto]].
  - cbn [fr_body]. apply (dnf_sat B g X M s body F D). exists c. split; auto. intros l J. unfold clits in J. apply in_app_or in J. destruct J as [J|J].
    + eapply (s_lits_flat_sound fr (c_pos c)); eauto. apply forallb_forall. intros z Z. apply NW. unfold clits. apply in_or_app; auto.
    + eapply (s_lits_flat_sound fr (c_neg c)); eauto. apply forallb_forall. intros z Z. apply NW. unfold clits. apply in_or_app; auto.
  - cbn [snd a_args]. eapply s_flat_args_sound; eauto.
Qed.
Lemma s_rule_complete : forall B g X M fr r rs, full (fr_body r) = true -> neg_wild_free (fr_body r) = true ->
  (forall i j, fr i = fr j -> i = j) -> (forall v i, In v (head_vars (fr_head r) ++ form_vars (fr_body r)) -> v <> fr i) ->
  form_ite (fr_body r) = true -> (forall a e, In a (fhead_atoms (fr_head r)) -> In e (snd a) -> plain_ite e = true) ->
  s_rule_to_back fr r = Some rs ->
  forall p t, front_consequence B g X M r p t -> exists r', In r' rs /\ head_consequence B g X M r' p t.
Proof.
  intros B g X M fr [hd body] rs F N INJ FRESH RB RH H p t (s & a & S0 & Ia & -> & K). cbn [fr_body fr_head] in *. unfold s_rule_to_back in H. cbn [fr_body fr_head] in H.
  destruct (from_formula body) as [cs|] eqn:D; [|discriminate H]. cbn [obnd] in H. destruct hd as [[q es]|l0|x0 l0]; try discriminate H. cbn [s_flat_head] in H.
  destruct (s_flat_args fr es 0) as [[ts extra] n] eqn:Qh. cbn [obnd] in H. set (h := HAtom (mkAtom q ts)) in *.
  pose (V := fun v => In v (head_vars (FHAtom (q, es)) ++ form_vars body)).
  pose proof (proj1 (dnf_sat B g X M s body F D) S0) as (c & Ic & Sc).
  destruct (@s_conj_rules_out fr INJ h extra cs n rs H c Ic) as (m & [lx nx] & [ly ny] & L & Qx & Qy & Ir). cbn [fst snd] in *.
  assert (VH : forall v, In v (flat_map expr_vars es) -> V v) by (intros v J; apply in_or_app; left; unfold head_vars; cbn; rewrite app_nil_r; auto).
  assert (VL : forall l v, In l (clits c) -> In v (form_vars l) -> V v) by (intros l v J1 J2; apply in_or_app; right; eapply part_vars; eauto; eapply dnf_part; eauto).
  assert (NW : forall l, In l (clits c) -> neg_wild_free l = true) by (intros l J; eapply part_neg; [eapply dnf_part; eauto|auto]).
  assert (RL : forall l e, In l (clits c) -> In e (fexprs l) -> plain_ite e = true) by (intros l e J; apply fexprs_ite; eapply part_ite; [eapply dnf_part; eauto|auto]).
  assert (IP : forall l, In l (c_pos c) -> In l (clits c)) by (intros; apply in_or_app; auto). assert (IN : forall l, In l (c_neg c) -> In l (clits c)) by (intros; apply in_or_app; auto).
  destruct Ia as [<-|[]]. cbn [snd] in K.
  destruct (@s_flat_args_vars fr INJ V es 0 _ _ _ VH Qh) as (_ & Wh & We).
  destruct (@s_flat_args_complete fr INJ B g X M V FRESH es s 0 _ _ _ t VH Qh (fun e => RH (q, es) e (or_introl eq_refl)) K) as (s1 & X1 & S1 & Eb2).
  destruct (s_lits_flat_vars fr INJ V (c_pos c) m (fun l v J => VL l v (IP l J)) Qx) as (Lx & Wx). destruct (s_lits_flat_vars fr INJ V (c_neg c) nx (fun l v J => VL l v (IN l J)) Qy) as (Ly & Wy).
  assert (HK : forall s' l k z n0, ext fr 0 ny s s' -> s_flat_lits fr l k = Some (z, n0) -> (forall f, In f l -> In f (clits c)) -> forall f, In f l -> fholds B g X M s' f).
  { intros s' l k z n0 X' Q J f J'. eapply s_fholds_lit_local; eauto. eapply source_agree with (V := V); eauto. }
  assert (X1' : ext fr 0 ny s s1) by (eapply ext_mono; eauto; lia).
  destruct (s_lits_flat_complete fr INJ B g X M V FRESH (c_pos c) s1 m) with (2 := Qx) as (s2 & X2 & S2); auto.
  { intros l v J. apply VL; auto. } { apply forallb_forall; auto. } { intros f e J. apply RL; auto. } { eapply HK; eauto. }
  assert (X2' : ext fr 0 ny s s2). { intros v J. rewrite X2, X1'; auto. intros i Li. apply J. lia. }
  destruct (s_lits_flat_complete fr INJ B g X M V FRESH (c_neg c) s2 nx) with (2 := Qy) as (s3 & X3 & S3); auto.
  { intros l v J. apply VL; auto. } { apply forallb_forall; auto. } { intros f e J. apply RL; auto. } { eapply HK; eauto. }
  assert (X13 : ext fr m ny s1 s3) by (eapply ext_trans; eauto).
  eexists. split; [exact Ir|]. exists s3, (mkAtom q ts). split; [|split; [left; auto|split; [auto|]]].
  - change (sat B g X M s3 (lx ++ ly ++ extra)). apply sat_app; [exact (@ext_sat fr INJ B g X M V FRESH _ _ _ _ _ _ _ Wx X3 (or_introl (le_n _)) S2)|].
    apply sat_app; auto. exact (@ext_sat fr INJ B g X M V FRESH _ _ _ _ _ _ _ We X13 (or_introl L) S1).
  - rewrite <- Eb2. cbn [a_args]. apply tvals_agree. eapply (@ext_agree fr INJ V FRESH) with (2 := X13); [|left; exact L]. exact Wh.
Qed.
(** The conditions on the text of a rule. *)
Definition front_ok (r : frule) : bool :=
  imp_free (fr_body r) && full (fr_body r) && neg_wild_free (fr_body r) && form_ite (fr_body r) &&
  forallb (fun a => forallb plain_ite (snd a)) (fhead_atoms (fr_head r)).
Theorem stripped_meaning : forall B g X M fr r rs, front_ok r = true ->
  (forall i j, fr i = fr j -> i = j) -> (forall v i, In v (head_vars (fr_head r) ++ form_vars (fr_body r)) -> v <> fr i) ->
  s_compile_rule fr r = Some rs ->
  forall p t, front_consequence B g X M r p t <-> exists r', In r' rs /\ head_consequence B g X M r' p t.
Proof.
  intros B g X M fr r rs OK INJ FRESH H p t. unfold front_ok in OK. rewrite !andb_true_iff in OK. destruct OK as [[[[I F] N] T] TH].
  rewrite forallb_forall in TH.
  unfold s_compile_rule in H. rewrite transform_same in H by auto. cbn [obnd] in H.
  destruct (oall (map (s_rule_to_back fr) (split_heads r))) as [css|] eqn:Q; [|discriminate H]. cbn [obnd] in H. injection H as <-. apply oall_map in Q.
  assert (SH : forall r1, In r1 (split_heads r) -> fr_body r1 = fr_body r /\ forall a, In a (fhead_atoms (fr_head r1)) -> In a (fhead_atoms (fr_head r))).
  { intros r1 J. unfold split_heads in J. destruct (fr_head r) as [x|l|x l] eqn:Eh; [destruct J as [<-|[]]; rewrite Eh; auto| |destruct J as [<-|[]]; rewrite Eh; auto].
    apply in_map_iff in J. destruct J as (a & <- & J). cbn. split; auto. intros b [<-|[]]. auto. }
  assert (SO : forall a, In a (fhead_atoms (fr_head r)) -> exists r1, In r1 (split_heads r) /\ In a (fhead_atoms (fr_head r1))).
  { intros a J. unfold split_heads. destruct (fr_head r) as [x|l|x l] eqn:Eh; [exists r; rewrite Eh; split; [left|]; auto| |exists r; rewrite Eh; split; [left|]; auto].
    exists (mkFrule (FHAtom a) (fr_body r)). split; [apply in_map_iff; eauto|left; auto]. }
  split.
  - intros (s & a & S0 & Ia & -> & K). destruct (SO a Ia) as (r1 & J1 & J2). destruct (SH r1 J1) as [EB EH]. destruct (F2_in_l _ Q J1) as (cs & J3 & J4).
    destruct (@s_rule_complete B g X M fr r1 cs) with (p := fst a) (t := t) as (r' & K1 & K2); rewrite ?EB; auto.
    + intros v i J. apply FRESH. apply in_app_or in J. apply in_or_app. destruct J as [J|J]; auto. left. unfold head_vars in *. apply in_flat_map in J.
      destruct J as (b & J & J'). apply in_flat_map. eauto.
    + intros b e Jb Je. specialize (TH b (EH b Jb)). rewrite forallb_forall in TH. auto.
    + exists s, a. rewrite EB. auto.
    + exists r'. split; auto. apply in_concat. eauto.
  - intros (r' & J & K). apply in_concat in J. destruct J as (cs & J & J'). destruct (F2_in_r _ Q J) as (r1 & J1 & J2). destruct (SH r1 J1) as [EB EH].
    destruct (@s_rule_sound B g X M fr r1 cs) with (r' := r') (p := p) (t := t) as (s & a & S0 & Ia & Ep & Kt); rewrite ?EB; auto.
    exists s, a. rewrite <- EB. auto.
Qed.
Print Assumptions stripped_meaning.
