(** C62: the demand transformation keeps the answers that are demanded. *)
From Coq Require Import List ZArith Bool Arith Lia.
From Verif Require Import Value Back Eval Scc SccFacts PropsStrat BackSem PropsUnused Optimize PropsOpt PropsOpt2 VarTupleFacts Demand.
Import ListNotations.

(** *** Specification *)

(** The atoms of a body that are computed on demand, and their demanded arguments. *)
Definition on_demand (ads : adornments) (body : list lit) (a : atom) (ad : adornment) : Prop :=
  (In (LAtom a) body \/ In (LNeg a) body) /\ lookup (a_pred a) ads = Some ad.
Definition needed (a : atom) (ad : adornment) (v : var) : Prop := In (TVar v) (pick (ad_pattern ad) (a_args a)).

(** The variables whose values are known before the atoms on demand are computed:
    the demanded arguments of the head, the atoms that are not on demand, the
    assignments, and, when [pass], the atoms on demand computed before. *)
Inductive known (ads : adornments) (pass : bool) (r : rule) : var -> Prop :=
| k_entry h ad v : r_head r = HAtom h -> lookup (a_pred h) ads = Some ad -> needed h ad v -> known ads pass r v
| k_atom a v : In (LAtom a) (r_body r) -> lookup (a_pred a) ads = None -> In (TVar v) (a_args a) -> known ads pass r v
| k_assign v e : In (LAssign v e) (r_body r) -> (forall w, In w (aexpr_vars e) -> known ads pass r w) -> known ads pass r v
| k_pass a ad v : pass = true -> on_demand ads (r_body r) a ad ->
    (forall w, needed a ad w -> known ads pass r w) -> In (TVar v) (a_args a) -> known ads pass r v.

(** The demand of every atom on demand can be computed ... *)
Definition passes (ads : adornments) (pass : bool) (r : rule) : Prop :=
  forall a ad v, on_demand ads (r_body r) a ad -> needed a ad v -> known ads pass r v.
(** ... without looking at a negated atom on demand. *)
Definition transformable (ads : adornments) (r : rule) : Prop :=
  passes ads false r \/
  (passes ads true r /\ forall a, In (LNeg a) (r_body r) -> lookup (a_pred a) ads = None).

Definition demand_name (ads : adornments) (p : pred) : Prop := exists q ad, lookup q ads = Some ad /\ ad_pred ad = p.

Record demand_ok (ads : adornments) (P : program) : Prop := {
  ok_foreign : forall p ad, lookup p ads = Some ad ->
    g_foreign (p_reg P) p = false /\ g_foreign (p_reg P) (ad_pred ad) = false /\ lookup (ad_pred ad) ads = None;
  ok_fresh : forall r q b, In r (p_rules P) -> reads P r q b -> ~ demand_name ads q;
  ok_agg : forall r d, In r (p_rules P) -> In (LReduce d) (r_body r) ->
    lookup (a_pred (rd_body d)) ads = None /\ (forall a, rd_groupby d = Some a -> lookup (a_pred a) ads = None);
  ok_ents : forall r, In r (p_rules P) ->
    (exists ad, lookup (r_pred r) ads = Some ad) \/ (exists a ad, on_demand ads (r_body r) a ad) ->
    new_functors r = [] /\ needs_dyn_entity (p_reg P) r = false;
  ok_pass : forall r, In r (p_rules P) -> transformable ads r }.

(** *** The grounded variables *)
Inductive gk (base : list lit) : var -> Prop :=
| gk_atom a v : In (LAtom a) base -> In (TVar v) (a_args a) -> gk base v
| gk_assign v e : In (LAssign v e) base -> (forall w, In w (aexpr_vars e) -> gk base w) -> gk base v.

Lemma tvar_In : forall v l, In v (flat_map tvar l) <-> In (TVar v) l.
Proof.
  intros v l. rewrite in_flat_map. split.
  - intros (t & H & E). destruct t; cbn in E; [|contradiction]. destruct E as [->|[]]. exact H.
  - intros H. exists (TVar v). split; [exact H|left; reflexivity].
Qed.
Lemma forallb_memb : forall l g, forallb (fun w => memb w g) l = true <-> (forall w, In w l -> In w g).
Proof. intros l g. rewrite forallb_forall. split; intros H w Hw; apply SccFacts.memb_In; auto. Qed.

Definition ready (base : list lit) (g : list var) (v : var) : Prop :=
  exists e, In (LAssign v e) base /\ forall w, In w (aexpr_vars e) -> In w g.
Lemma round_In : forall base g v, In v (ground_round base g) <-> ready base g v \/ In v g.
Proof.
  intros base g v. unfold ground_round. rewrite PropsOpt2.extend_In, in_flat_map. split.
  - intros [(l & Hl & H)|H]; [|auto]. destruct l as [|a|x e|c a b|t|d| |]; try contradiction.
    destruct (forallb (fun w => memb w g) (aexpr_vars e)) eqn:F; [|contradiction]. destruct H as [->|[]].
    left. exists e. split; [exact Hl|]. apply forallb_memb. exact F.
  - intros [(e & Hl & H)|H]; [|auto]. left. exists (LAssign v e). split; [exact Hl|].
    apply forallb_memb in H. rewrite H. left. reflexivity.
Qed.
Lemma insert_cases : forall x l, (insert x l = l /\ In x l) \/ length (insert x l) = S (length l).
Proof. intros x l. unfold insert. destruct (memb x l) eqn:M; [left; split; [reflexivity|apply SccFacts.memb_In; auto]|right]. rewrite ?app_length; cbn; lia. Qed.
Lemma extend_same : forall xs l, length l <= length (extend xs l) /\
  (length (extend xs l) = length l -> forall x, In x xs -> In x l).
Proof.
  induction xs as [|x xs IH]; intros l; [split; [cbn; lia|intros _ x []]|].
  change (extend (x :: xs) l) with (extend xs (insert x l)). destruct (IH (insert x l)) as [I1 I2].
  destruct (insert_cases x l) as [[E H]|E].
  - rewrite E in *. split; [exact I1|]. intros L y [<-|Hy]; auto.
  - split; [lia|]. intros L. exfalso. lia.
Qed.

Definition unready (g : list var) (l : lit) : bool := match l with LAssign v _ => negb (memb v g) | _ => false end.
Lemma filter_lt : forall (A : Type) (f g : A -> bool) l, (forall x, f x = true -> g x = true) ->
  length (filter f l) <= length (filter g l) /\
  ((exists x, In x l /\ f x = false /\ g x = true) -> length (filter f l) < length (filter g l)).
Proof.
  intros A f g l H. induction l as [|x l [I1 I2]]; [split; [auto|intros (x & [] & _)]|]. cbn.
  destruct (f x) eqn:F.
  - rewrite (H x F). cbn. split; [lia|]. intros (y & [->|Hy] & Q); [destruct Q; congruence|]. specialize (I2 (ex_intro _ y (conj Hy Q))). lia.
  - destruct (g x) eqn:G; cbn; split; try lia. intros (y & [->|Hy] & Q); [destruct Q; congruence|]. apply I2; eauto.
Qed.
Lemma filter_len : forall (A : Type) (f : A -> bool) l, length (filter f l) <= length l.
Proof. intros A f l. induction l; cbn; auto. destruct (f a); cbn; lia. Qed.

Lemma ground_loop_spec : forall base fuel g, length (filter (unready g) base) < fuel ->
  (forall v, In v g -> gk base v) -> (forall a v, In (LAtom a) base -> In (TVar v) (a_args a) -> In v g) ->
  exists g', ground_loop fuel base g = Some g' /\ forall v, In v g' <-> gk base v.
Proof.
  intros base. induction fuel as [|fuel IH]; intros g L S A; [lia|]. cbn [ground_loop].
  destruct (length (ground_round base g) =? length g) eqn:E.
  - apply Nat.eqb_eq in E. exists g. split; [reflexivity|]. intros v. split; [apply S|]. intros K.
    induction K as [a v Ha Hv|v e He Hw IHw]; [eauto|].
    unfold ground_round in E. apply (proj2 (extend_same _ _) E v).
    apply in_flat_map. exists (LAssign v e). split; [exact He|].
    replace (forallb (fun w => memb w g) (aexpr_vars e)) with true; [left; reflexivity|].
    symmetry. apply forallb_memb. exact IHw.
  - apply Nat.eqb_neq in E. apply IH.
    + assert (X : exists v, ready base g v /\ ~ In v g).
      { destruct (existsb (fun v => negb (memb v g)) (flat_map (fun l => match l with
          | LAssign v e => if forallb (fun w => memb w g) (aexpr_vars e) then [v] else [] | _ => [] end) base)) eqn:Q.
        - apply existsb_exists in Q. destruct Q as (v & Hv & Nv). exists v. split.
          + destruct (proj1 (round_In base g v)) as [R|R]; [unfold ground_round; apply PropsOpt2.extend_In; left; exact Hv|exact R|].
            apply SccFacts.memb_In in R. rewrite R in Nv. discriminate.
          + intros R. apply SccFacts.memb_In in R. rewrite R in Nv. discriminate.
        - exfalso. apply E. unfold ground_round.
          assert (Y : forall xs l, (forall x, In x xs -> In x l) -> extend xs l = l).
          { induction xs as [|x xs IHx]; intros l Hl; [reflexivity|]. change (extend (x :: xs) l) with (extend xs (insert x l)).
            destruct (insert_cases x l) as [[-> _]|D].
            - apply IHx. intros y Hy. apply Hl. right. exact Hy.
            - exfalso. unfold insert in D. specialize (Hl x (or_introl eq_refl)). apply SccFacts.memb_In in Hl. rewrite Hl in D. lia. }
          rewrite Y; [reflexivity|]. intros x Hx. destruct (memb x g) eqn:M; [apply SccFacts.memb_In; exact M|].
          exfalso. assert (existsb (fun v => negb (memb v g)) (flat_map (fun l => match l with
          | LAssign v e => if forallb (fun w => memb w g) (aexpr_vars e) then [v] else [] | _ => [] end) base) = true).
          { apply existsb_exists. exists x. split; [exact Hx|]. rewrite M. reflexivity. }
          congruence. }
      destruct X as (v & (e & He & Hw) & Nv).
      enough (length (filter (unready (ground_round base g)) base) < length (filter (unready g) base)) by lia.
      apply filter_lt.
      * intros l H. destruct l as [|a|x e'|c a b|t|d| |]; try discriminate. cbn in *. apply negb_true_iff in H. apply negb_true_iff.
        destruct (memb x g) eqn:M; [|reflexivity]. apply SccFacts.memb_In in M.
        assert (memb x (ground_round base g) = true) by (apply SccFacts.memb_In, round_In; auto). congruence.
      * exists (LAssign v e). split; [exact He|]. cbn. split.
        -- apply negb_false_iff, SccFacts.memb_In, round_In. left. exists e. auto.
        -- apply negb_true_iff. destruct (memb v g) eqn:M; [|reflexivity]. apply SccFacts.memb_In in M. contradiction.
    + intros v Hv. apply round_In in Hv. destruct Hv as [(e & He & Hw)|Hv]; [|auto]. eapply gk_assign; eauto.
    + intros a v Ha Hv. apply round_In. right. eauto.
Qed.
Lemma grounded_spec : forall base, exists g, grounded base = Some g /\ forall v, In v g <-> gk base v.
Proof.
  intros base. apply ground_loop_spec.
  - pose proof (filter_len _ (unready (extend (flat_map atom_vars_of base) [])) base). lia.
  - intros v Hv. apply PropsOpt2.extend_In in Hv. destruct Hv as [Hv|[]]. apply in_flat_map in Hv.
    destruct Hv as (l & Hl & H). destruct l as [a| | | | | | |]; try contradiction. cbn in H. apply tvar_In in H.
    eapply gk_atom; eauto.
  - intros a v Ha Hv. apply PropsOpt2.extend_In. left. apply in_flat_map. exists (LAtom a). split; [exact Ha|].
    cbn. apply tvar_In. exact Hv.
Qed.

(** *** The layers *)
Inductive ck (base : list lit) (todo : list odatom) : var -> Prop :=
| ck_atom a v : In (LAtom a) base -> In (TVar v) (a_args a) -> ck base todo v
| ck_assign v e : In (LAssign v e) base -> (forall w, In w (aexpr_vars e) -> ck base todo w) -> ck base todo v
| ck_pass o v : In o todo -> (forall w, In w (od_vars o) -> ck base todo w) -> In (TVar v) (a_args (od_atom o)) -> ck base todo v.
Lemma gk_ck : forall base todo v, gk base v -> ck base todo v.
Proof. intros base todo v K. induction K; [eapply ck_atom|eapply ck_assign]; eauto. Qed.

Lemma filter_split : forall (A : Type) (f : A -> bool) l, length (filter f l) + length (filter (fun x => negb (f x)) l) = length l.
Proof. intros A f l. induction l as [|x l IH]; cbn; [reflexivity|]. destruct (f x); cbn; lia. Qed.

(** The layers: each starts from the base and the atoms of the layers before. *)
Inductive layers : list lit -> list odatom -> list darc -> Prop :=
| ly_last base todo : layers base todo [mkArc base todo]
| ly_more base todo now later arcs : (forall o, In o todo <-> In o now \/ In o later) ->
    layers (base ++ map (fun o => LAtom (od_atom o)) now) later arcs ->
    layers base todo (mkArc base now :: arcs).

Lemma sips_spec : forall fuel base todo, length todo < fuel ->
  ((forall o v, In o todo -> In v (od_vars o) -> ck base todo v) /\
     exists arcs, sips_loop fuel base todo = Some (Some arcs) /\ layers base todo arcs) \/
  ((exists o v, In o todo /\ In v (od_vars o) /\ ~ ck base todo v) /\ sips_loop fuel base todo = Some None).
Proof.
  induction fuel as [|fuel IH]; intros base todo L; [lia|].
  destruct (grounded_spec base) as (g & Eg & G).
  set (ok := fun o => forallb (fun v => memb v g) (od_vars o)).
  assert (ST : sips_loop (S fuel) base todo = match filter (fun o => negb (ok o)) todo with
    | [] => Some (Some [mkArc base (filter ok todo)])
    | later => match filter ok todo with
       | [] => Some None
       | now => obnd (sips_loop fuel (base ++ map (fun o => LAtom (od_atom o)) now) later) (fun r =>
                    Some (match r with Some arcs => Some (mkArc base now :: arcs) | None => None end))
       end end).
  { cbn [sips_loop]. rewrite Eg. cbn [obnd]. unfold ok.
    destruct (filter (fun o => negb (forallb (fun v => memb v g) (od_vars o))) todo); [reflexivity|].
    destruct (filter (fun o => forallb (fun v => memb v g) (od_vars o)) todo); reflexivity. }
  rewrite ST. clear ST.
  assert (OK : forall o, ok o = true <-> forall v, In v (od_vars o) -> gk base v).
  { intros o. unfold ok. rewrite forallb_memb. split; intros H v Hv; apply G; auto. }
  pose proof (filter_split _ ok todo) as FS.
  destruct (filter (fun o => negb (ok o)) todo) as [|o1 later] eqn:EL.
  - assert (A : forall o, In o todo -> ok o = true).
    { intros o Ho. destruct (ok o) eqn:Q; [reflexivity|]. exfalso.
      assert (In o (filter (fun o => negb (ok o)) todo)) by (apply filter_In; rewrite Q; auto).
      rewrite EL in H. contradiction. }
    assert (F : filter ok todo = todo).
    { clear -A. induction todo as [|o todo IH]; cbn; [reflexivity|]. rewrite (A o (or_introl eq_refl)). f_equal.
      apply IH. intros. apply A. right. auto. }
    left. split.
    + intros o v Ho Hv. apply gk_ck. apply (proj1 (OK o) (A o Ho)). exact Hv.
    + rewrite F. eexists. split; [reflexivity|]. apply ly_last.
  - destruct (filter ok todo) as [|o2 now] eqn:EN.
    + right. split; [|reflexivity].
      assert (N : forall v, ck base todo v -> gk base v).
      { intros v K. induction K as [a v Ha Hv|v e He Hw IHw|o v Ho Hw IHw Hv]; [eapply gk_atom; eauto|eapply gk_assign; eauto|].
        exfalso. assert (In o (filter ok todo)) by (apply filter_In; split; [exact Ho|]; apply OK; exact IHw).
        rewrite EN in H. contradiction. }
      assert (H : In o1 (filter (fun o => negb (ok o)) todo)) by (rewrite EL; left; reflexivity).
      apply filter_In in H. destruct H as [H1 H2]. apply negb_true_iff in H2.
      assert (Q : exists v, In v (od_vars o1) /\ ~ In v g).
      { unfold ok in H2. clear -H2. induction (od_vars o1) as [|v l IH]; [discriminate|]. cbn in H2.
        destruct (memb v g) eqn:M.
        - destruct (IH H2) as (w & A & B). exists w. split; [right; exact A|exact B].
        - exists v. split; [left; reflexivity|]. intros R. apply SccFacts.memb_In in R. congruence. }
      destruct Q as (v & Q1 & Q2). exists o1, v. split; [exact H1|]. split; [exact Q1|]. intros K. apply Q2, G, N, K.
    + cbv beta iota zeta. set (nw := o2 :: now) in *. set (lt := o1 :: later) in *.
      assert (Spl : forall o, In o todo <-> In o nw \/ In o lt).
      { intros o. rewrite <- EN, <- EL, !filter_In. destruct (ok o); cbn; intuition. }
      assert (NW : forall o v, In o nw -> In v (od_vars o) -> gk base v).
      { intros o v Ho. rewrite <- EN in Ho. apply filter_In in Ho. apply OK. tauto. }
      set (base' := base ++ map (fun o => LAtom (od_atom o)) nw) in *.
      assert (E : forall v, ck base todo v <-> ck base' lt v).
      { intros v. split; intros K.
        - induction K as [a v Ha Hv|v e He Hw IHw|o v Ho Hw IHw Hv].
          + eapply ck_atom; [apply in_or_app; left; exact Ha|exact Hv].
          + eapply ck_assign; [apply in_or_app; left; exact He|exact IHw].
          + apply Spl in Ho. destruct Ho as [Ho|Ho].
            * eapply ck_atom; [apply in_or_app; right; apply in_map_iff; exists o; split; [reflexivity|exact Ho]|exact Hv].
            * eapply ck_pass; eauto.
        - induction K as [a v Ha Hv|v e He Hw IHw|o v Ho Hw IHw Hv].
          + apply in_app_or in Ha. destruct Ha as [Ha|Ha]; [eapply ck_atom; eauto|].
            apply in_map_iff in Ha. destruct Ha as (o & Q & Ho). injection Q as <-.
            eapply ck_pass; [apply Spl; left; exact Ho| |exact Hv]. intros w Hw. apply gk_ck. eauto.
          + apply in_app_or in He. destruct He as [He|He]; [eapply ck_assign; eauto|].
            apply in_map_iff in He. destruct He as (o & Q & Ho). discriminate.
          + eapply ck_pass; [apply Spl; right; exact Ho|exact IHw|exact Hv]. }
      assert (Lt : length lt < fuel) by (unfold nw in FS; cbn [length] in FS; lia).
      destruct (IH base' lt Lt) as [(A & arcs & -> & Y)|((o & v & Ho & Hv & N) & ->)]; cbn [obnd].
      * left. split.
        -- intros o v Ho Hv. apply Spl in Ho. destruct Ho as [Ho|Ho]; [apply gk_ck; eauto|]. apply E. eauto.
        -- eexists. split; [reflexivity|]. eapply ly_more; eauto.
      * right. split; [|reflexivity]. exists o, v. split; [apply Spl; auto|]. split; [exact Hv|]. rewrite E. exact N.
Qed.

Lemma sips_one : forall fuel base todo, (forall o v, In o todo -> In v (od_vars o) -> gk base v) ->
  sips_loop (S fuel) base todo = Some (Some [mkArc base todo]).
Proof.
  intros fuel base todo A. cbn [sips_loop]. destruct (grounded_spec base) as (g & -> & G). cbn [obnd].
  assert (F : forall l, (forall o, In o l -> In o todo) -> filter (fun o => forallb (fun v => memb v g) (od_vars o)) l = l /\
     filter (fun o => negb (forallb (fun v => memb v g) (od_vars o))) l = []).
  { induction l as [|o l IH]; intros I; [split; reflexivity|]. destruct (IH (fun o' H => I o' (or_intror H))) as [F1 F2]. cbn.
    replace (forallb (fun v => memb v g) (od_vars o)) with true; [cbn; rewrite F1, F2; split; reflexivity|].
    symmetry. apply forallb_memb. intros v Hv. apply G. apply (A o v); [apply I; left; reflexivity|exact Hv]. }
  destruct (F todo (fun _ H => H)) as [-> ->]. reflexivity.
Qed.
Lemma layers_cover : forall base todo arcs, layers base todo arcs -> forall o, In o todo -> exists a, In a arcs /\ In o (arc_rhs a).
Proof.
  intros base todo arcs Y. induction Y as [base todo|base todo now later arcs Sp Y IH]; intros o Ho.
  - eexists. split; [left; reflexivity|exact Ho].
  - apply Sp in Ho. destruct Ho as [Ho|Ho].
    + eexists. split; [left; reflexivity|exact Ho].
    + destruct (IH o Ho) as (a & A & R). exists a. split; [right; exact A|exact R].
Qed.
Lemma layers_rhs : forall base todo arcs, layers base todo arcs -> forall a o, In a arcs -> In o (arc_rhs a) -> In o todo.
Proof.
  intros base todo arcs Y. induction Y as [base todo|base todo now later arcs Sp Y IH]; intros a o Ha Ho.
  - destruct Ha as [<-|[]]. exact Ho.
  - apply Sp. destruct Ha as [<-|Ha]; [left; exact Ho|right; eauto].
Qed.
Lemma layers_lhs : forall base todo arcs, layers base todo arcs -> forall a l, In a arcs -> In l (arc_lhs a) ->
  In l base \/ exists o, In o todo /\ l = LAtom (od_atom o).
Proof.
  intros base todo arcs Y. induction Y as [base todo|base todo now later arcs Sp Y IH]; intros a l Ha Hl.
  - destruct Ha as [<-|[]]. left. exact Hl.
  - destruct Ha as [<-|Ha]; [left; exact Hl|]. destruct (IH a l Ha Hl) as [H|(o & Ho & ->)].
    + apply in_app_or in H. destruct H as [H|H]; [left; exact H|]. apply in_map_iff in H. destruct H as (o & <- & Ho).
      right. exists o. split; [apply Sp; left; exact Ho|reflexivity].
    + right. exists o. split; [apply Sp; right; exact Ho|reflexivity].
Qed.

(** *** The rules of the new program *)
Definition tr (ads : adornments) (r : rule) : option rule :=
  match lookup (r_pred r) ads with Some a => transform_on_demand_rule r a | None => Some r end.

Lemma transform_rules_spec : forall ads rs ts ds os, transform_rules ads rs = Some (ts, ds, os) ->
  (forall r, In r rs -> exists r' d, tr ads r = Some r' /\ demand_of ads r' = Some d /\ (In r' ts \/ In r' os) /\ incl d ds) /\
  (forall x, In x ts \/ In x os -> exists r, In r rs /\ tr ads r = Some x) /\
  (forall x, In x ds -> exists r r' d, In r rs /\ tr ads r = Some r' /\ demand_of ads r' = Some d /\ In x d).
Proof.
  induction rs as [|r rs IH]; intros ts ds os E.
  - injection E as <- <- <-. split; [intros r []|split; [intros x [[]|[]]|intros x []]].
  - cbn [transform_rules] in E. destruct (lookup (r_pred r) ads) as [ad|] eqn:L.
    + destruct (transform_on_demand_rule r ad) as [r'|] eqn:T; [|discriminate]. cbn [obnd] in E.
      destruct (demand_of ads r') as [d|] eqn:D; [|discriminate]. cbn [obnd] in E.
      destruct (transform_rules ads rs) as [[[ts1 ds1] os1]|]; [|discriminate]. cbn [obnd] in E. injection E as <- <- <-.
      destruct (IH _ _ _ eq_refl) as (I1 & I2 & I3).
      assert (Tr : tr ads r = Some r') by (unfold tr; rewrite L; exact T).
      repeat split.
      * intros x [<-|Hx].
        -- exists r', d. split; [exact Tr|]. split; [exact D|]. split; [left; left; reflexivity|apply incl_appl, incl_refl].
        -- destruct (I1 x Hx) as (x' & e & A & B & C & F). exists x', e. split; [exact A|]. split; [exact B|].
           split; [destruct C; [left; right|right]; assumption|apply incl_appr; exact F].
      * intros x [[<-|Hx]|Hx]; [exists r; split; [left; reflexivity|exact Tr]| |];
          (destruct (I2 x) as (y & A & B); [auto|]; exists y; split; [right; exact A|exact B]).
      * intros x Hx. apply in_app_or in Hx. destruct Hx as [Hx|Hx].
        -- exists r, r', d. split; [left; reflexivity|auto].
        -- destruct (I3 x Hx) as (y & y' & e & A & B). exists y, y', e. split; [right; exact A|exact B].
    + destruct (demand_of ads r) as [d|] eqn:D; [|discriminate]. cbn [obnd] in E.
      destruct (transform_rules ads rs) as [[[ts1 ds1] os1]|]; [|discriminate]. cbn [obnd] in E. injection E as <- <- <-.
      destruct (IH _ _ _ eq_refl) as (I1 & I2 & I3).
      assert (Tr : tr ads r = Some r) by (unfold tr; rewrite L; reflexivity).
      repeat split.
      * intros x [<-|Hx].
        -- exists r, d. split; [exact Tr|]. split; [exact D|]. split; [right; left; reflexivity|apply incl_appl, incl_refl].
        -- destruct (I1 x Hx) as (x' & e & A & B & C & F). exists x', e. split; [exact A|]. split; [exact B|].
           split; [destruct C; [left|right; right]; assumption|apply incl_appr; exact F].
      * intros x [Hx|[<-|Hx]]; [|exists r; split; [left; reflexivity|exact Tr]|];
          (destruct (I2 x) as (y & A & B); [auto|]; exists y; split; [right; exact A|exact B]).
      * intros x Hx. apply in_app_or in Hx. destruct Hx as [Hx|Hx].
        -- exists r, r, d. split; [left; reflexivity|auto].
        -- destruct (I3 x Hx) as (y & y' & e & A & B). exists y, y', e. split; [right; exact A|exact B].
Qed.

Lemma transform_spec : forall ads P P', demand_transform_with ads P = Some P' ->
  p_reg P' = p_reg P /\ p_facts P' = p_facts P /\
  (forall r, In r (p_rules P) -> exists r' d, tr ads r = Some r' /\ demand_of ads r' = Some d /\ In r' (p_rules P') /\ incl d (p_rules P')) /\
  (forall x, In x (p_rules P') -> (exists r, In r (p_rules P) /\ tr ads r = Some x) \/
     exists r r' d, In r (p_rules P) /\ tr ads r = Some r' /\ demand_of ads r' = Some d /\ In x d).
Proof.
  intros ads P P' E. unfold demand_transform_with in E. destruct ads as [|a ads].
  - injection E as <-. split; [reflexivity|]. split; [reflexivity|]. split.
    + intros r Hr. exists r, []. split; [reflexivity|]. split; [|split; [exact Hr|intros x []]].
      unfold demand_of, contains_on_demand.
      replace (existsb _ (r_body r)) with false; [reflexivity|].
      symmetry. induction (r_body r) as [|l b IH]; [reflexivity|]. cbn [existsb]. rewrite IH. destruct l; reflexivity.
    + intros x Hx. left. exists x. split; [exact Hx|reflexivity].
  - destruct (transform_rules (a :: ads) (p_rules P)) as [[[ts ds] os]|] eqn:T; [|discriminate]. cbn [obnd] in E. injection E as <-.
    destruct (transform_rules_spec _ _ _ _ _ T) as (I1 & I2 & I3). cbn [p_reg p_facts p_rules].
    split; [reflexivity|]. split; [reflexivity|]. split.
    + intros r Hr. destruct (I1 r Hr) as (r' & d & A & B & C & D). exists r', d. split; [exact A|]. split; [exact B|]. split.
      * rewrite !in_app_iff. tauto.
      * intros x Hx. rewrite !in_app_iff. right. left. apply D, Hx.
    + intros x Hx. rewrite !in_app_iff in Hx. destruct Hx as [Hx|[Hx|Hx]]; [left; apply I2; auto|right; apply I3; exact Hx|left; apply I2; auto].
Qed.

Lemma tr_shape : forall ads r r', tr ads r = Some r' ->
  r_head r' = r_head r /\
  ((lookup (r_pred r) ads = None /\ r' = r) \/
   exists ad h, lookup (r_pred r) ads = Some ad /\ r_head r = HAtom h /\
     r_body r' = r_body r ++ [LAtom (mkAtom (ad_pred ad) (pick (ad_pattern ad) (a_args h)))]).
Proof.
  intros ads r r' T. unfold tr in T. destruct (lookup (r_pred r) ads) as [ad|] eqn:L.
  - unfold transform_on_demand_rule in T. destruct (r_head r) as [h|] eqn:H; [|discriminate]. injection T as <-.
    split; [reflexivity|]. right. exists ad, h. auto.
  - injection T as <-. split; [reflexivity|]. left. auto.
Qed.
Lemma tr_incl : forall ads r r', tr ads r = Some r' -> incl (r_body r) (r_body r').
Proof.
  intros ads r r' T. destruct (tr_shape _ _ _ T) as [_ [[_ ->]|(ad & h & _ & _ & ->)]]; [apply incl_refl|apply incl_appl, incl_refl].
Qed.

Lemma omap_In : forall (A C : Type) (f : A -> option C) l m, omap f l = Some m ->
  (forall x, In x l -> exists y, f x = Some y /\ In y m) /\ (forall y, In y m -> exists x, In x l /\ f x = Some y).
Proof.
  intros A C f l m E. apply omap_Forall2 in E. induction E as [|x y l m E F [I1 I2]]; [split; intros x []|]. split.
  - intros z [<-|Hz]; [exists y; split; [exact E|left; reflexivity]|]. destruct (I1 z Hz) as (w & A1 & A2). exists w. split; [exact A1|right; exact A2].
  - intros z [<-|Hz]; [exists x; split; [left; reflexivity|exact E]|]. destruct (I2 z Hz) as (w & A1 & A2). exists w. split; [right; exact A1|exact A2].
Qed.
Lemma demand_rules_In : forall arcs d, omap arc_rules arcs = Some d ->
  (forall a o, In a arcs -> In o (arc_rhs a) -> exists l, demand_rule (arc_lhs a) o = Some l /\ incl l (List.concat d)) /\
  (forall x, In x (List.concat d) -> exists a o l, In a arcs /\ In o (arc_rhs a) /\ demand_rule (arc_lhs a) o = Some l /\ In x l).
Proof.
  intros arcs d E. destruct (omap_In _ _ _ _ _ E) as [I1 I2]. split.
  - intros a o Ha Ho. destruct (I1 a Ha) as (ds & Ea & Hd). unfold arc_rules in Ea.
    destruct (omap (demand_rule (arc_lhs a)) (arc_rhs a)) as [m|] eqn:Em; [|discriminate]. injection Ea as <-.
    destruct (omap_In _ _ _ _ _ Em) as [J1 _]. destruct (J1 o Ho) as (l & El & Hl). exists l. split; [exact El|].
    intros x Hx. apply in_concat. exists (List.concat m). split; [exact Hd|]. apply in_concat. eauto.
  - intros x Hx. apply in_concat in Hx. destruct Hx as (ds & Hd & Hx). destruct (I2 ds Hd) as (a & Ha & Ea). unfold arc_rules in Ea.
    destruct (omap (demand_rule (arc_lhs a)) (arc_rhs a)) as [m|] eqn:Em; [|discriminate]. injection Ea as <-.
    apply in_concat in Hx. destruct Hx as (l & Hl & Hx). destruct (omap_In _ _ _ _ _ Em) as [_ J2].
    destruct (J2 l Hl) as (o & Ho & El). exists a, o, l. auto.
Qed.
Lemma demand_rule_cases : forall base o l, demand_rule base o = Some l ->
  (l = [] /\ In (LAtom (od_atom o)) base) \/
  exists b, incl b base /\
    l = [mkRule (HAtom (mkAtom (ad_pred (od_adorn o)) (pick (ad_pattern (od_adorn o)) (a_args (od_atom o))))) b].
Proof.
  intros base o l E. unfold demand_rule, remove_ungrounded in E. destruct (grounded base) as [g|]; [|discriminate].
  cbn [obnd] in E. match type of E with context [is_identity ?b _] => set (b0 := b) in * end.
  assert (I : incl b0 base) by (intros x Hx; apply filter_In in Hx; tauto).
  destruct (is_identity b0 (od_atom o)) eqn:Q; injection E as <-.
  - left. split; [reflexivity|]. apply I. unfold is_identity in Q. destruct b0 as [|[a| | | | | | |] [|]]; try discriminate.
    destruct (atom_eq_dec a (od_atom o)) as [->|]; [left; reflexivity|discriminate].
  - right. exists b0. auto.
Qed.

(** *** What a rule knows *)
Lemma base_In : forall ads body l, In l (base_of ads body) <-> In l body /\
  match l with LAtom a | LNeg a => lookup (a_pred a) ads = None | _ => True end.
Proof.
  intros ads body l. unfold base_of. rewrite filter_In. destruct l; try tauto; destruct (lookup (a_pred a) ads); intuition congruence.
Qed.
Lemma todo_In : forall ads body o, In o (to_ground_of ads body) <->
  on_demand ads body (od_atom o) (od_adorn o) /\ od_vars o = pick_vars (ad_pattern (od_adorn o)) (a_args (od_atom o)).
Proof.
  intros ads body o. unfold to_ground_of. rewrite in_flat_map. unfold on_demand. split.
  - intros (l & Hl & H). destruct l as [a|a| | | | | |]; try contradiction;
      (destruct (lookup (a_pred a) ads) as [ad|] eqn:L; [|contradiction]); destruct H as [<-|[]]; cbn; auto.
  - intros ([[H|H] L] & E); [exists (LAtom (od_atom o))|exists (LNeg (od_atom o))]; (split; [exact H|]); rewrite L; left;
      destruct o; cbn in *; congruence.
Qed.
Lemma needed_In : forall a ad v, In v (pick_vars (ad_pattern ad) (a_args a)) <-> needed a ad v.
Proof. intros. apply tvar_In. Qed.

Section Rule.
  Variables (ads : adornments) (r r' : rule).
  Hypothesis T : tr ads r = Some r'.
  Hypothesis NA : forall p ad, lookup p ads = Some ad -> lookup (ad_pred ad) ads = None.
  Lemma on_demand_tr : forall a ad, on_demand ads (r_body r') a ad <-> on_demand ads (r_body r) a ad.
  Proof.
    intros a ad. destruct (tr_shape _ _ _ T) as [_ [[_ ->]|(e & h & L & _ & ->)]]; [tauto|]. unfold on_demand.
    rewrite !in_app_iff. cbn. split; [|tauto]. intros [[[H|[H|[]]]|[H|[H|[]]]] Q]; auto; try discriminate.
    injection H as <-. cbn in Q. rewrite (NA _ _ L) in Q. discriminate.
  Qed.
  Lemma known_ck : forall v, known ads true r v -> ck (base_of ads (r_body r')) (to_ground_of ads (r_body r')) v.
  Proof.
    pose proof (tr_incl _ _ _ T) as Inc.
    intros v K. induction K as [h ad v Hh L N|a v Ha L N|v e He Hw IHw|a ad v _ O Hw IHw Hv].
    - destruct (tr_shape _ _ _ T) as [_ [[L' _]|(ad' & h' & L' & H' & Bd)]].
      + unfold r_pred in L'. rewrite Hh in L'. cbn in L'. congruence.
      + rewrite Hh in H'. injection H' as <-. unfold r_pred in L'. rewrite Hh in L'. cbn in L'.
        assert (ad' = ad) by congruence. subst ad'.
        eapply ck_atom; [apply base_In; split; [rewrite Bd; apply in_or_app; right; left; reflexivity|cbn; eauto]|exact N].
    - eapply ck_atom; [apply base_In; split; [apply Inc; exact Ha|exact L]|exact N].
    - eapply ck_assign; [apply base_In; split; [apply Inc; exact He|exact I]|exact IHw].
    - apply (ck_pass _ _ (mkOd a ad (pick_vars (ad_pattern ad) (a_args a)))).
      + apply todo_In. cbn. split; [apply on_demand_tr; exact O|reflexivity].
      + cbn. intros w Hw'. apply IHw. apply needed_In. exact Hw'.
      + exact Hv.
  Qed.
  Lemma known_gk : forall v, known ads false r v -> gk (base_of ads (r_body r')) v.
  Proof.
    pose proof (tr_incl _ _ _ T) as Inc.
    intros v K. induction K as [h ad v Hh L N|a v Ha L N|v e He Hw IHw|a ad v Q _ _ _ _]; [| | |discriminate].
    - destruct (tr_shape _ _ _ T) as [_ [[L' _]|(ad' & h' & L' & H' & Bd)]].
      + unfold r_pred in L'. rewrite Hh in L'. cbn in L'. congruence.
      + rewrite Hh in H'. injection H' as <-. unfold r_pred in L'. rewrite Hh in L'. cbn in L'.
        assert (ad' = ad) by congruence. subst ad'.
        eapply gk_atom; [apply base_In; split; [rewrite Bd; apply in_or_app; right; left; reflexivity|cbn; eauto]|exact N].
    - eapply gk_atom; [apply base_In; split; [apply Inc; exact Ha|exact L]|exact N].
    - eapply gk_assign; [apply base_In; split; [apply Inc; exact He|exact I]|exact IHw].
  Qed.
  Lemma ck_known : forall v, ck (base_of ads (r_body r')) (to_ground_of ads (r_body r')) v -> known ads true r v.
  Proof.
    assert (Bd : forall l, In l (r_body r') -> In l (r_body r) \/ exists ad h, lookup (r_pred r) ads = Some ad /\ r_head r = HAtom h /\
       l = LAtom (mkAtom (ad_pred ad) (pick (ad_pattern ad) (a_args h)))).
    { intros l Hl. destruct (tr_shape _ _ _ T) as [_ [[_ ->]|(ad & h & L & H & E)]]; [auto|]. rewrite E in Hl.
      apply in_app_or in Hl. destruct Hl as [Hl|[<-|[]]]; [auto|]. right. exists ad, h. auto. }
    intros v K. induction K as [a v Ha Hv|v e He Hw IHw|o v Ho Hw IHw Hv].
    - apply base_In in Ha. destruct Ha as [Ha L]. destruct (Bd _ Ha) as [Ha'|(ad & h & L' & Hh & E)].
      + eapply k_atom; eauto.
      + injection E as ->. cbn in Hv. eapply k_entry; [exact Hh| |exact Hv]. unfold r_pred in L'. rewrite Hh in L'. exact L'.
    - apply base_In in He. destruct (Bd _ (proj1 He)) as [H|(ad & h & _ & _ & E)]; [|discriminate]. eapply k_assign; eauto.
    - apply todo_In in Ho. destruct Ho as [Ho E]. eapply k_pass; [reflexivity|apply on_demand_tr; exact Ho| |exact Hv].
      intros w Hn. apply IHw. rewrite E. apply needed_In. exact Hn.
  Qed.

  Lemma rule_arcs : transformable ads r -> exists arcs,
    generate_sips (base_of ads (r_body r')) (to_ground_of ads (r_body r')) = Some (Some arcs) /\
    layers (base_of ads (r_body r')) (to_ground_of ads (r_body r')) arcs /\
    forall a, In a arcs -> incl (arc_lhs a) (r_body r').
  Proof.
    intros [H|[H N]].
    - exists [mkArc (base_of ads (r_body r')) (to_ground_of ads (r_body r'))]. split; [|split; [apply ly_last|]].
      + apply sips_one. intros o v Ho Hv. apply todo_In in Ho. destruct Ho as [Ho E]. apply known_gk. eapply H.
        * apply on_demand_tr. exact Ho.
        * apply needed_In. rewrite <- E. exact Hv.
      + intros a [<-|[]] l Hl. apply base_In in Hl. tauto.
    - destruct (sips_spec (S (List.length (to_ground_of ads (r_body r')))) (base_of ads (r_body r')) (to_ground_of ads (r_body r'))) as
        [(_ & arcs & E & Y)|((o & v & Ho & Hv & Nk) & _)]; [lia| |].
      + exists arcs. split; [exact E|]. split; [exact Y|]. intros a Ha l Hl.
        destruct (layers_lhs _ _ _ Y a l Ha Hl) as [Hb|(o & Ho & ->)]; [apply base_In in Hb; tauto|].
        apply todo_In in Ho. destruct Ho as [[[Ho|Ho] L] _]; [exact Ho|].
        exfalso. assert (O : on_demand ads (r_body r') (od_atom o) (od_adorn o)) by (split; [right; exact Ho|exact L]).
        destruct (tr_shape _ _ _ T) as [_ [[_ E']|(e & h & L' & _ & E')]].
        * rewrite E' in Ho. rewrite (N _ Ho) in L. discriminate.
        * rewrite E' in Ho. apply in_app_or in Ho. destruct Ho as [Ho|[Ho|[]]]; [|discriminate]. rewrite (N _ Ho) in L. discriminate.
      + exfalso. apply Nk, known_ck. apply todo_In in Ho. destruct Ho as [Ho E]. eapply H.
        * apply on_demand_tr. exact Ho.
        * apply needed_In. rewrite <- E. exact Hv.
  Qed.
  (** The layers fail exactly when some demand cannot be computed. *)
  Lemma sips_fails : (generate_sips (base_of ads (r_body r')) (to_ground_of ads (r_body r')) = Some None <-> ~ passes ads true r) /\
    generate_sips (base_of ads (r_body r')) (to_ground_of ads (r_body r')) <> None.
  Proof.
    unfold generate_sips. destruct (sips_spec (S (List.length (to_ground_of ads (r_body r')))) (base_of ads (r_body r')) (to_ground_of ads (r_body r'))) as
        [(A & arcs & E & Y)|((o & v & Ho & Hv & Nk) & E)]; [lia| |]; rewrite E; (split; [|discriminate]).
    - split; [discriminate|]. intros N. exfalso. apply N. intros a ad v O Nd. apply ck_known.
      apply (A (mkOd a ad (pick_vars (ad_pattern ad) (a_args a)))).
      + apply todo_In. cbn. split; [apply on_demand_tr; exact O|reflexivity].
      + cbn. apply needed_In. exact Nd.
    - split; [|reflexivity]. intros _ H. apply Nk, known_ck. apply todo_In in Ho. destruct Ho as [Ho E']. eapply H.
      + apply on_demand_tr. exact Ho.
      + apply needed_In. rewrite <- E'. exact Hv.
  Qed.
End Rule.

(** *** Main theorem *)
Lemma pick_map : forall (A C : Type) (f : A -> C) l pat, pick pat (map f l) = map f (pick pat l).
Proof. intros A C f. induction l as [|a l IH]; intros [|b pat]; try reflexivity. cbn. destruct b; cbn; rewrite IH; reflexivity. Qed.

Section Demand.
  Variables (B : benv) (ads : adornments) (P P' : program) (σ : pred -> nat) (M M' : interp).
  Hypothesis St : stratified P σ.
  Hypothesis WH : wf_heads P.
  Hypothesis WF : wf_functors P.
  Hypothesis OK : demand_ok ads P.
  Hypothesis TP : demand_transform_with ads P = Some P'.
  Hypothesis SM : stable B P M.
  Hypothesis SM' : stable B P' M'.

  Lemma NA : forall p ad, lookup p ads = Some ad -> lookup (ad_pred ad) ads = None.
  Proof. intros p ad L. destruct (ok_foreign _ _ OK p ad L) as (_ & _ & H). exact H. Qed.
  Definition sat (s : subst) (l : lit) : Prop := lit_sat B (p_reg P) M' M' s l.

  Lemma fire : forall x s a, In x (p_rules P') -> (forall l, In l (r_body x) -> sat s l) -> In a (head_atoms (r_head x)) ->
    M' (a_pred a) (tvals s (a_args a)).
  Proof.
    intros x s a Hx Hs Ha. destruct (transform_spec _ _ _ TP) as (Er & _). apply SM'.
    apply der_rule with (r := x) (s := s); [exact Hx| | |apply y_head; exact Ha].
    - intros b Hb Fb. rewrite Er in Fb. apply SM'. specialize (Hs _ Hb). unfold sat in Hs. cbn in Hs. rewrite Fb in Hs. exact Hs.
    - intros l Hl. rewrite Er. specialize (Hs l Hl). unfold sat in Hs. destruct l; cbn in *; auto. intros F. rewrite F in Hs. exact Hs.
  Qed.

  Lemma demanded : forall r r' a ad s, In r (p_rules P) -> tr ads r = Some r' -> on_demand ads (r_body r) a ad ->
    (forall l, In l (r_body r') -> sat s l) ->
    M' (ad_pred ad) (pick (ad_pattern ad) (tvals s (a_args a))) \/ M' (a_pred a) (tvals s (a_args a)).
  Proof.
    intros r r' a ad s Hr T O Hs. destruct (transform_spec _ _ _ TP) as (_ & _ & Hf & _).
    destruct (Hf r Hr) as (r1 & d & T1 & Ed & _ & Hd). rewrite T in T1. injection T1 as <-.
    destruct (rule_arcs ads r r' T NA (ok_pass _ _ OK r Hr)) as (arcs & Eg & Y & Inc).
    assert (Ot : In (mkOd a ad (pick_vars (ad_pattern ad) (a_args a))) (to_ground_of ads (r_body r'))).
    { apply todo_In. cbn. split; [apply (on_demand_tr ads r r' T NA); exact O|reflexivity]. }
    destruct (layers_cover _ _ _ Y _ Ot) as (arc & Ha & Ho).
    unfold demand_of in Ed. assert (C : contains_on_demand ads r' = true).
    { apply existsb_exists. apply (on_demand_tr ads r r' T NA) in O. destruct O as [[O|O] L]; eexists; (split; [exact O|]); cbn; rewrite L; reflexivity. }
    rewrite C in Ed. unfold generate_demand_rules in Ed. rewrite Eg in Ed. cbn [obnd] in Ed.
    destruct (omap arc_rules arcs) as [dl|] eqn:Edl; [|discriminate]. cbn [obnd] in Ed. injection Ed as <-.
    destruct (demand_rules_In _ _ Edl) as [D1 _]. destruct (D1 _ _ Ha Ho) as (l & El & Il).
    destruct (demand_rule_cases _ _ _ El) as [[_ Hi]|(b & Ib & ->)]; cbn [od_atom od_adorn] in *.
    - right. specialize (Hs _ (Inc _ Ha _ Hi)). unfold sat in Hs. cbn in Hs.
      destruct (ok_foreign _ _ OK _ _ (proj2 O)) as (F & _). rewrite F in Hs. exact Hs.
    - left. unfold tvals. rewrite pick_map. refine (fire _ s (mkAtom (ad_pred ad) (pick (ad_pattern ad) (a_args a))) _ _ _).
      + apply Hd, Il. left. reflexivity.
      + cbn. intros x Hx. apply Hs, (Inc _ Ha), Ib, Hx.
      + left. reflexivity.
  Qed.

  (** In a body that holds with the atoms on demand left out, layer after layer
      is demanded. *)
  Lemma layered : forall r r' s, In r (p_rules P) -> tr ads r = Some r' ->
    (forall l, In l (base_of ads (r_body r')) -> sat s l) ->
    (forall a ad, In (LAtom a) (r_body r) -> lookup (a_pred a) ads = Some ad ->
       M' (ad_pred ad) (pick (ad_pattern ad) (tvals s (a_args a))) -> M' (a_pred a) (tvals s (a_args a))) ->
    forall a ad, In (LAtom a) (r_body r) -> lookup (a_pred a) ads = Some ad -> M' (a_pred a) (tvals s (a_args a)).
  Proof.
    intros r r' s Hr T Hb Hd a ad Ha La. destruct (transform_spec _ _ _ TP) as (_ & _ & Hf & _).
    destruct (Hf r Hr) as (r1 & d & T1 & Ed & _ & Hdr). rewrite T in T1. injection T1 as <-.
    destruct (rule_arcs ads r r' T NA (ok_pass _ _ OK r Hr)) as (arcs & Eg & Y & Inc).
    assert (O : on_demand ads (r_body r) a ad) by (split; auto).
    assert (Ot : In (mkOd a ad (pick_vars (ad_pattern ad) (a_args a))) (to_ground_of ads (r_body r'))).
    { apply todo_In. cbn. split; [apply (on_demand_tr ads r r' T NA); exact O|reflexivity]. }
    unfold demand_of in Ed. assert (C : contains_on_demand ads r' = true).
    { apply existsb_exists. apply (on_demand_tr ads r r' T NA) in O. destruct O as [[O|O] L]; eexists; (split; [exact O|]); cbn; rewrite L; reflexivity. }
    rewrite C in Ed. unfold generate_demand_rules in Ed. rewrite Eg in Ed. cbn [obnd] in Ed.
    destruct (omap arc_rules arcs) as [dl|] eqn:Edl; [|discriminate]. cbn [obnd] in Ed. injection Ed as <-.
    destruct (demand_rules_In _ _ Edl) as [D1 _].
    assert (Td : forall o, In o (to_ground_of ads (r_body r')) -> on_demand ads (r_body r) (od_atom o) (od_adorn o)).
    { intros o Ho. apply (on_demand_tr ads r r' T NA). apply todo_In in Ho. tauto. }
    (* one arc *)
    assert (Arc : forall arc o, In arc arcs -> In o (arc_rhs arc) -> (forall l, In l (arc_lhs arc) -> sat s l) ->
       In o (to_ground_of ads (r_body r')) -> In (LAtom (od_atom o)) (r_body r) -> M' (a_pred (od_atom o)) (tvals s (a_args (od_atom o)))).
    { intros arc o Harc Ho Hl Hto Hat. destruct (D1 _ _ Harc Ho) as (l & El & Il). destruct (Td o Hto) as [_ Lo].
      destruct (demand_rule_cases _ _ _ El) as [[_ Hi]|(b & Ib & ->)].
      - specialize (Hl _ Hi). unfold sat in Hl. cbn in Hl. destruct (ok_foreign _ _ OK _ _ Lo) as (F & _). rewrite F in Hl. exact Hl.
      - apply (Hd _ _ Hat Lo). unfold tvals. rewrite pick_map.
        refine (fire _ s (mkAtom (ad_pred (od_adorn o)) (pick (ad_pattern (od_adorn o)) (a_args (od_atom o)))) _ _ _).
        + apply Hdr, Il. left. reflexivity.
        + cbn. intros x Hx. apply Hl, Ib, Hx.
        + left. reflexivity. }
    assert (Bd : forall o, In (LAtom (od_atom o)) (r_body r') -> on_demand ads (r_body r) (od_atom o) (od_adorn o) -> In (LAtom (od_atom o)) (r_body r)).
    { intros o Ho [_ Lo]. destruct (tr_shape _ _ _ T) as [_ [[_ E]|(e & h & L & _ & E)]]; rewrite E in Ho; [exact Ho|].
      apply in_app_or in Ho. destruct Ho as [Ho|[Ho|[]]]; [exact Ho|]. injection Ho as Ho. exfalso. rewrite <- Ho in Lo. cbn in Lo.
      rewrite (NA _ _ L) in Lo. discriminate. }
    set (todo0 := to_ground_of ads (r_body r')) in *.
    assert (Z : forall base todo arcs0, layers base todo arcs0 -> incl arcs0 arcs -> incl todo todo0 ->
       (forall l, In l base -> sat s l) -> forall o, In o todo -> In (LAtom (od_atom o)) (r_body r) -> M' (a_pred (od_atom o)) (tvals s (a_args (od_atom o)))).
    { clear Y Ot. intros base todo arcs0 Y. induction Y as [base todo|base todo now later arcs0 Sp Y IH]; intros Ia It Hs o Ho Hat.
      - apply (Arc (mkArc base todo) o); auto. apply Ia. left. reflexivity.
      - assert (Now : forall o', In o' now -> In (LAtom (od_atom o')) (r_body r) -> M' (a_pred (od_atom o')) (tvals s (a_args (od_atom o')))).
        { intros o' Ho' Hat'. apply (Arc (mkArc base now) o'); auto; [apply Ia; left; reflexivity|]. apply It, Sp. left. exact Ho'. }
        apply Sp in Ho. destruct Ho as [Ho|Ho]; [auto|]. apply IH; auto.
        + intros x Hx. apply Ia. right. exact Hx.
        + intros x Hx. apply It, Sp. right. exact Hx.
        + intros l Hl. apply in_app_or in Hl. destruct Hl as [Hl|Hl]; [auto|]. apply in_map_iff in Hl. destruct Hl as (o' & <- & Ho').
          assert (Tl : In o' todo0) by (apply It, Sp; left; exact Ho').
          assert (On := Td _ Tl). unfold sat. cbn. destruct (ok_foreign _ _ OK _ _ (proj2 On)) as (F & _). rewrite F. apply Now; [exact Ho'|].
          apply Bd; [|exact On].
          (* the atom is on the left of the next layer *)
          assert (Hn : exists arc, In arc arcs0 /\ In (LAtom (od_atom o')) (arc_lhs arc)).
          { clear -Y Ho'. inversion Y; subst; (eexists; split; [left; reflexivity|]); cbn; apply in_or_app; right; apply in_map_iff; exists o'; auto. }
          destruct Hn as (arc & Harc & Hin). apply (Inc arc); [apply Ia; right; exact Harc|exact Hin]. }
    exact (Z _ _ _ Y (incl_refl _) (incl_refl _) Hb _ Ot Ha).
  Qed.

  Lemma yields_tr : forall r r' s p t, In r (p_rules P) -> tr ads r = Some r' ->
    (yields B (p_reg P) r s p t <-> yields B (p_reg P) r' s p t).
  Proof.
    intros r r' s p t Hr T. destruct (tr_shape _ _ _ T) as [Eh [[_ ->]|(ad & h & L & Hh & Eb)]]; [tauto|].
    destruct (ok_ents _ _ OK r Hr (or_introl (ex_intro _ ad L))) as [En Ed].
    assert (X1 : forall v f l, ~ In (LAssign v (ANew f l)) (r_body r)).
    { intros v f l H. apply new_functor_In in H. rewrite En in H. contradiction. }
    assert (X2 : forall v f l, In (LAssign v (ACall f l)) (r_body r) -> g_fn_entity (p_reg P) f = true -> False).
    { intros v f l H F. enough (needs_dyn_entity (p_reg P) r = true) by congruence. apply existsb_exists. eexists. split; [exact H|]. exact F. }
    assert (X3 : forall a, In (LAtom a) (r_body r) -> g_foreign (p_reg P) (a_pred a) = true -> g_fp_entity (p_reg P) (a_pred a) = true -> False).
    { intros a H F F'. enough (needs_dyn_entity (p_reg P) r = true) by congruence. apply existsb_exists. eexists. split; [exact H|]. cbn. rewrite F, F'. reflexivity. }
    split; intros Y; destruct Y as [a Ha|v f l Hl|v f l q t Hl Ef A C|a q t Ha Fo Fe A C].
    - apply y_head. rewrite Eh. exact Ha.
    - destruct (X1 _ _ _ Hl).
    - destruct (X2 _ _ _ Hl Ef).
    - destruct (X3 _ Ha Fo Fe).
    - apply y_head. rewrite <- Eh. exact Ha.
    - rewrite Eb in Hl. apply in_app_or in Hl. destruct Hl as [Hl|[Hl|[]]]; [destruct (X1 _ _ _ Hl)|discriminate].
    - rewrite Eb in Hl. apply in_app_or in Hl. destruct Hl as [Hl|[Hl|[]]]; [destruct (X2 _ _ _ Hl Ef)|discriminate].
    - rewrite Eb in Ha. apply in_app_or in Ha. destruct Ha as [Ha|[Ha|[]]]; [destruct (X3 _ Ha Fo Fe)|]. injection Ha as <-. cbn in Fo.
      destruct (ok_foreign _ _ OK _ _ L) as (_ & F & _). congruence.
  Qed.
  (** A demand rule only derives demand. *)
  Lemma yields_demand : forall r r' d x s p t, In r (p_rules P) -> tr ads r = Some r' -> demand_of ads r' = Some d -> In x d ->
    yields B (p_reg P) x s p t -> demand_name ads p.
  Proof.
    intros r r' d x s p t Hr T Ed Hx Y. unfold demand_of in Ed. destruct (contains_on_demand ads r') eqn:C; [|injection Ed as <-; contradiction].
    assert (O : exists a ad, on_demand ads (r_body r) a ad).
    { apply existsb_exists in C. destruct C as (l & Hl & C).
      destruct l as [a|a| | | | | |]; try discriminate; (destruct (lookup (a_pred a) ads) as [ad|] eqn:L; [|discriminate]);
        exists a, ad; apply (on_demand_tr ads r r' T NA); split; auto. }
    destruct (ok_ents _ _ OK r Hr (or_intror O)) as [En Edy].
    destruct (rule_arcs ads r r' T NA (ok_pass _ _ OK r Hr)) as (arcs & Eg & Ly & Inc).
    unfold generate_demand_rules in Ed. rewrite Eg in Ed. cbn [obnd] in Ed.
    destruct (omap arc_rules arcs) as [dl|] eqn:Edl; [|discriminate]. cbn [obnd] in Ed. injection Ed as <-.
    destruct (demand_rules_In _ _ Edl) as [_ D2]. destruct (D2 x Hx) as (arc & o & l & Ha & Ho & El & Hxl).
    destruct (demand_rule_cases _ _ _ El) as [[-> _]|(b & Ib & ->)]; [contradiction|]. destruct Hxl as [<-|[]].
    assert (Hto : In o (to_ground_of ads (r_body r'))) by (eapply layers_rhs; eauto).
    apply todo_In in Hto. destruct Hto as [[_ Lo] _].
    assert (Bd : forall l, In l b -> In l (r_body r) \/ exists ad h, lookup (r_pred r) ads = Some ad /\ l = LAtom (mkAtom (ad_pred ad) h)).
    { intros y Hy. apply Ib, (Inc _ Ha) in Hy. destruct (tr_shape _ _ _ T) as [_ [[_ E]|(e & h & L & _ & E)]]; rewrite E in Hy; [auto|].
      apply in_app_or in Hy. destruct Hy as [Hy|[Hy|[]]]; [auto|]. right. exists e. eexists. split; [exact L|]. symmetry. exact Hy. }
    destruct Y as [a Hh|v f u Hl|v f u q t Hl Ef A0 C0|a q t Hl Fo Fe A0 C0]; cbn in Hh || cbn in Hl.
    - destruct Hh as [<-|[]]. exists (a_pred (od_atom o)), (od_adorn o). split; [exact Lo|reflexivity].
    - exfalso. destruct (Bd _ Hl) as [H|(? & ? & _ & H)]; [|discriminate]. apply new_functor_In in H. rewrite En in H. contradiction.
    - exfalso. destruct (Bd _ Hl) as [H|(? & ? & _ & H)]; [|discriminate].
      enough (needs_dyn_entity (p_reg P) r = true) by congruence. apply existsb_exists. eexists. split; [exact H|]. exact Ef.
    - exfalso. destruct (Bd _ Hl) as [H|(e & ? & L & H)].
      + enough (needs_dyn_entity (p_reg P) r = true) by congruence. apply existsb_exists. eexists. split; [exact H|]. cbn. rewrite Fo, Fe. reflexivity.
      + injection H as ->. cbn in Fo. destruct (ok_foreign _ _ OK _ _ L) as (_ & F & _). congruence.
  Qed.

  Definition asked (p : pred) (t : list value) : Prop := forall ad, lookup p ads = Some ad -> M' (ad_pred ad) (pick (ad_pattern ad) t).
  Definition down (n : nat) : Prop := forall p t, σ p < n -> ~ demand_name ads p -> M' p t -> M p t.
  Definition up (n : nat) : Prop := forall p t, σ p < n -> M p t -> asked p t -> M' p t.

  Lemma rule_level : forall r s p t, In r (p_rules P) -> yields B (p_reg P) r s p t -> σ (r_pred r) = σ p.
  Proof.
    intros r s p t Hr Y. destruct (yields_level B P r s p t WH WF Hr Y) as [->|H]; [reflexivity|].
    destruct (St r Hr) as [_ Fu]. symmetry. auto.
  Qed.

  Lemma down_step : forall n, down n -> up n -> down (S n).
  Proof.
    intros n Dn Un p t L N Hm. apply SM' in Hm. destruct (transform_spec _ _ _ TP) as (Er & Ef & _ & Hx).
    assert (L' : σ p <= n) by lia. clear L.
    cut (der B P M p t); [apply SM|]. induction Hm as [f Hf|x s p t Hxr Hp IH Ho Y].
    - apply der_fact. rewrite <- Ef. exact Hf.
    - rewrite Er in Y. destruct (Hx x Hxr) as [(r & Hr & T)|(r & r' & d & Hr & T & Ed & Hd)].
      2: { exfalso. apply N. eapply yields_demand; eauto. }
      apply (yields_tr r x s p t Hr T) in Y. pose proof (rule_level r s p t Hr Y) as Lv.
      pose proof (tr_incl _ _ _ T) as Inc. destruct (St r Hr) as [Rd _].
      assert (Sx : forall l, In l (r_body x) -> sat s l).
      { intros l Hl. unfold sat. specialize (Ho l Hl). rewrite Er in Ho. destruct l as [a|a|v e|c a b|u|d| |]; cbn in *; auto.
        destruct (g_foreign (p_reg P) (a_pred a)) eqn:F; [auto|]. apply SM'. apply Hp; [exact Hl|]. rewrite Er. exact F. }
      apply der_rule with (r := r) (s := s); [exact Hr| | |exact Y].
      + intros a Ha Fa. apply IH; [apply Inc; exact Ha|rewrite Er; exact Fa| |].
        * eapply ok_fresh; eauto. eapply reads_pos; eauto.
        * destruct (Rd _ _ (reads_pos P r a Ha Fa)). lia.
      + intros l Hl. specialize (Ho l (Inc l Hl)). rewrite Er in Ho. destruct l as [a|a|v e|c a b|u|d| |]; cbn in *; auto.
        * destruct (g_foreign (p_reg P) (a_pred a)) eqn:F; [exact Ho|]. intros Hm. apply Ho.
          destruct (Rd _ _ (reads_neg P r a Hl F)) as [_ Lt]. specialize (Lt eq_refl).
          destruct (lookup (a_pred a) ads) as [ad|] eqn:La.
          -- destruct (demanded r x a ad s Hr T (conj (or_intror Hl) La) Sx) as [D|D]; [|exact D].
             apply Un; [lia|exact Hm|]. intros ad' La'. rewrite La in La'. injection La' as <-. exact D.
          -- apply Un; [lia|exact Hm|]. intros ad' La'. congruence.
        * destruct (ok_agg _ _ OK r d Hr Hl) as [A1 A2]. eapply b_agg_ext; [| |exact Ho].
          -- intros u. pose proof (reads_red P r d Hl) as Rr. destruct (Rd _ _ Rr) as [_ Lt]. specialize (Lt eq_refl). split; intros Hm.
             ++ apply Dn; [lia|eapply ok_fresh; eauto|exact Hm].
             ++ apply Un; [lia|exact Hm|]. intros ad' La'. congruence.
          -- destruct (rd_groupby d) as [b|] eqn:G; [|tauto]. intros u. pose proof (reads_grp P r d b Hl G) as Rr.
             destruct (Rd _ _ Rr) as [_ Lt]. specialize (Lt eq_refl). specialize (A2 b eq_refl). split; intros Hm.
             ++ apply Dn; [lia|eapply ok_fresh; eauto|exact Hm].
             ++ apply Un; [lia|exact Hm|]. intros ad' La'. congruence.
  Qed.

  Lemma up_step : forall n, down n -> up n -> up (S n).
  Proof.
    intros n Dn Un p t L Hm Hk. apply SM in Hm. destruct (transform_spec _ _ _ TP) as (Er & Ef & Hf & _).
    assert (L' : σ p <= n) by lia. clear L. revert Hk. induction Hm as [f Hf'|r s p t Hr Hp IH Ho Y]; intros Hk.
    - apply SM'. apply der_fact. rewrite Ef. exact Hf'.
    - destruct (Hf r Hr) as (r' & d & T & _ & Hr' & _). pose proof (rule_level r s p t Hr Y) as Lv.
      pose proof (tr_incl _ _ _ T) as Inc. destruct (St r Hr) as [Rd _].
      (* literals other than atoms on demand *)
      assert (Ob : forall l, In l (r_body r) -> other_sat B (p_reg P) M' s l).
      { intros l Hl. specialize (Ho l Hl). destruct l as [a|a|v e|c a b|u|dd| |]; cbn in *; auto.
        - destruct (g_foreign (p_reg P) (a_pred a)) eqn:F; [exact Ho|]. intros Hm. apply Ho.
          pose proof (reads_neg P r a Hl F) as Rn. destruct (Rd _ _ Rn) as [_ Lt]. specialize (Lt eq_refl).
          apply Dn; [lia|eapply ok_fresh; eauto|exact Hm].
        - destruct (ok_agg _ _ OK r dd Hr Hl) as [A1 A2]. eapply b_agg_ext; [| |exact Ho].
          + intros u. pose proof (reads_red P r dd Hl) as Rr. destruct (Rd _ _ Rr) as [_ Lt]. specialize (Lt eq_refl). split; intros Hm.
            * apply Un; [lia|exact Hm|]. intros ad' La'. congruence.
            * apply Dn; [lia|eapply ok_fresh; eauto|exact Hm].
          + destruct (rd_groupby dd) as [b|] eqn:G; [|tauto]. intros u. pose proof (reads_grp P r dd b Hl G) as Rr.
            destruct (Rd _ _ Rr) as [_ Lt]. specialize (Lt eq_refl). specialize (A2 b eq_refl). split; intros Hm.
            * apply Un; [lia|exact Hm|]. intros ad' La'. congruence.
            * apply Dn; [lia|eapply ok_fresh; eauto|exact Hm]. }
      assert (Pos : forall a, In (LAtom a) (r_body r) -> g_foreign (p_reg P) (a_pred a) = false -> asked (a_pred a) (tvals s (a_args a)) ->
        M' (a_pred a) (tvals s (a_args a))).
      { intros a Ha Fa Ka. apply IH; auto. destruct (Rd _ _ (reads_pos P r a Ha Fa)). lia. }
      (* the demand of the head *)
      assert (Hd : forall l, In l (r_body r') -> ~ In l (r_body r) -> sat s l).
      { intros l Hl Nl. destruct (tr_shape _ _ _ T) as [_ [[_ E]|(ad & h & La & Hh & E)]]; rewrite E in Hl; [contradiction|].
        apply in_app_or in Hl. destruct Hl as [Hl|[<-|[]]]; [contradiction|].
        unfold sat. cbn. destruct (ok_foreign _ _ OK _ _ La) as (_ & -> & _).
        destruct (ok_ents _ _ OK r Hr (or_introl (ex_intro _ ad La))) as [En Edy].
        apply (yields_tr r r' s p t Hr T) in Y. apply (yields_tr r r' s p t Hr T) in Y.
        assert (Eq : p = r_pred r /\ t = tvals s (a_args h)).
        { destruct Y as [a Ha|v f u Hl|v f u q t Hl Ef' A0 C0|a q t Hl Fo Fe A0 C0].
          - unfold r_pred. rewrite Hh in *. cbn in *. destruct Ha as [<-|[]]. auto.
          - apply new_functor_In in Hl. rewrite En in Hl. contradiction.
          - enough (needs_dyn_entity (p_reg P) r = true) by congruence. apply existsb_exists. eexists. split; [exact Hl|]. exact Ef'.
          - enough (needs_dyn_entity (p_reg P) r = true) by congruence. apply existsb_exists. eexists. split; [exact Hl|]. cbn. rewrite Fo, Fe. reflexivity. }
        destruct Eq as [-> ->]. unfold tvals. rewrite <- pick_map. apply Hk. exact La. }
      assert (Sb : forall l, In l (base_of ads (r_body r')) -> sat s l).
      { intros l Hl. apply base_In in Hl. destruct Hl as [Hl Ln].
        destruct (tr_shape _ _ _ T) as [_ Sh].
        assert (C : In l (r_body r) \/ (In l (r_body r') /\ sat s l)).
        { destruct Sh as [[_ E]|(ad & h & La & Hh & E)]; [left; rewrite E in Hl; exact Hl|].
          assert (Hl' := Hl). rewrite E in Hl'. apply in_app_or in Hl'. destruct Hl' as [Hl'|[Hl'|[]]]; [left; exact Hl'|].
          right. split; [exact Hl|]. destruct (ok_foreign _ _ OK _ _ La) as (_ & Fd & _).
          apply Hd; [exact Hl|]. intros Q. rewrite <- Hl' in Q.
          apply (ok_fresh _ _ OK r (ad_pred ad) false Hr); [exact (reads_pos P r (mkAtom (ad_pred ad) (pick (ad_pattern ad) (a_args h))) Q Fd)|].
          exists (r_pred r), ad. auto. }
        destruct C as [C|[_ C]]; [|exact C]. specialize (Ob l C). unfold sat. destruct l as [a|a|v e|c a b|u|dd| |]; cbn in *; auto.
        destruct (g_foreign (p_reg P) (a_pred a)) eqn:F; [auto|]. apply Pos; auto. intros ad Q. congruence. }
      assert (Sx : forall l, In l (r_body r') -> sat s l).
      { intros l Hl. destruct l as [a|a|v e|c a b|u|dd| |];
          try (apply Sb; apply base_In; split; [exact Hl|exact I]).
        - destruct (lookup (a_pred a) ads) as [ad|] eqn:La; [|apply Sb; apply base_In; auto].
          destruct (ok_foreign _ _ OK _ _ La) as (F & _). unfold sat. cbn. rewrite F.
          apply (layered r r' s Hr T Sb) with (ad := ad); [| |exact La].
          + intros a0 ad0 Ha0 La0 D. apply Pos; [exact Ha0| |].
            * destruct (ok_foreign _ _ OK _ _ La0) as (F0 & _). exact F0.
            * intros ad1 La1. rewrite La0 in La1. injection La1 as <-. exact D.
          + destruct (tr_shape _ _ _ T) as [_ [[_ E]|(e & h & L & _ & E)]]; rewrite E in Hl; [exact Hl|].
            apply in_app_or in Hl. destruct Hl as [Hl|[Hl|[]]]; [exact Hl|]. injection Hl as <-. cbn in La. rewrite (NA _ _ L) in La. discriminate.
        - assert (Hl' : In (LNeg a) (r_body r)).
          { destruct (tr_shape _ _ _ T) as [_ [[_ E]|(e & h & L & _ & E)]]; rewrite E in Hl; [exact Hl|].
            apply in_app_or in Hl. destruct Hl as [Hl|[Hl|[]]]; [exact Hl|discriminate]. }
          exact (Ob _ Hl'). }
      apply SM'. apply der_rule with (r := r') (s := s); [exact Hr'| | |rewrite Er; apply (yields_tr r r' s p t Hr T); exact Y].
      + intros a Ha Fa. rewrite Er in Fa. apply SM'. specialize (Sx _ Ha). unfold sat in Sx. cbn in Sx. rewrite Fa in Sx. exact Sx.
      + intros l Hl. rewrite Er. specialize (Sx l Hl). unfold sat in Sx. destruct l; cbn in *; auto. intros F. rewrite F in Sx. exact Sx.
  Qed.

  Lemma both : forall n, down n /\ up n.
  Proof.
    induction n as [|n [D U]]; [split; intros p t L; lia|]. split; [apply down_step|apply up_step]; assumption.
  Qed.

  Lemma only_asked : forall p t ad, ~ In p (g_adts (p_reg P)) -> lookup p ads = Some ad -> ~ demand_name ads p -> M' p t ->
    In (mkFact p t) (p_facts P) \/ M' (ad_pred ad) (pick (ad_pattern ad) t).
  Proof.
    intros p t ad NAd La Nd Hm. apply SM' in Hm. destruct (transform_spec _ _ _ TP) as (Er & Ef & _ & Hx).
    destruct Hm as [f Hf|x s p t Hxr Hp Ho Y].
    - left. rewrite <- Ef. destruct f. exact Hf.
    - right. rewrite Er in Y. destruct (Hx x Hxr) as [(r & Hr & T)|(r & r' & d & Hr & T & Ed & Hd)].
      2: { exfalso. apply Nd. eapply yields_demand; eauto. }
      assert (Y' := Y). apply (yields_tr r x s p t Hr T) in Y'.
      assert (Ep : p = r_pred r).
      { destruct (yields_level B P r s p t WH WF Hr Y') as [Q|Q]; [exact Q|]. exfalso. apply NAd. unfold functor_preds in Q.
        destruct (needs_dyn_entity (p_reg P) r); [exact Q|]. unfold new_functors in Q. apply in_flat_map in Q. destruct Q as (l & Hl & Q).
        destruct l as [| |v e| | | | |]; try contradiction. destruct e; try contradiction. destruct Q as [<-|[]]. eapply WF; eauto. }
      destruct (tr_shape _ _ _ T) as [_ [[L _]|(ad' & h & L & Hh & E)]]; [congruence|].
      assert (ad' = ad) by congruence. subst ad'. destruct (ok_foreign _ _ OK _ _ L) as (_ & Fd & _).
      destruct (ok_ents _ _ OK r Hr (or_introl (ex_intro _ ad L))) as [En Edy].
      assert (Et : t = tvals s (a_args h)).
      { clear Ep. destruct Y' as [a Ha|v f u Hl|v f u q t Hl Ef' A0 C0|a q t Hl Fo Fe A0 C0].
          - rewrite Hh in *. cbn in *. destruct Ha as [<-|[]]. auto.
          - apply new_functor_In in Hl. rewrite En in Hl. contradiction.
          - enough (needs_dyn_entity (p_reg P) r = true) by congruence. apply existsb_exists. eexists. split; [exact Hl|]. exact Ef'.
          - enough (needs_dyn_entity (p_reg P) r = true) by congruence. apply existsb_exists. eexists. split; [exact Hl|]. cbn. rewrite Fo, Fe. reflexivity. }
      rewrite Et. unfold tvals. rewrite pick_map. apply SM'.
      apply (Hp (mkAtom (ad_pred ad) (pick (ad_pattern ad) (a_args h)))); [rewrite E; apply in_or_app; right; left; reflexivity|].
      rewrite Er. exact Fd.
  Qed.
End Demand.

(** C62 (partial): when the rules are stratified, the demand of every atom can be
    computed without a negated atom on demand, entities are not built in the rules
    concerned and aggregations read none of the relations on demand: the new
    program derives nothing wrong, all that is not on demand, and of the relations
    on demand all that is demanded.  Missing: exactly the cases below in which it
    is not so, and the aggregations. *)
Theorem C62_demand_partial : forall B ads P P' σ M M',
  stratified P σ -> wf_heads P -> wf_functors P -> demand_ok ads P -> demand_transform_with ads P = Some P' ->
  stable B P M -> stable B P' M' ->
  (forall p t, ~ demand_name ads p -> M' p t -> M p t) /\
  (forall p t, ~ demand_name ads p -> lookup p ads = None -> M p t -> M' p t) /\
  (forall p ad t, lookup p ads = Some ad -> M' (ad_pred ad) (pick (ad_pattern ad) t) -> M p t -> M' p t).
Proof.
  intros B ads P P' σ M M' St WH WF OK TP SM SM'. split; [|split].
  - intros p t N H. destruct (both B ads P P' σ M M' St WH WF OK TP SM SM' (S (σ p))) as [D _]. apply (D p t); auto.
  - intros p t N L H. destruct (both B ads P P' σ M M' St WH WF OK TP SM SM' (S (σ p))) as [_ U]. apply (U p t); auto.
    intros ad Q. congruence.
  - intros p ad t L D H. destruct (both B ads P P' σ M M' St WH WF OK TP SM SM' (S (σ p))) as [_ U]. apply (U p t); auto.
    intros ad' Q. rewrite L in Q. injection Q as <-. exact D.
Qed.
Print Assumptions C62_demand_partial.

(** ... and only what is demanded is derived. *)
Theorem C62_relevant_partial : forall B ads P P' M',
  wf_heads P -> wf_functors P -> demand_ok ads P -> demand_transform_with ads P = Some P' -> stable B P' M' ->
  forall p ad t, lookup p ads = Some ad -> ~ demand_name ads p -> ~ In p (g_adts (p_reg P)) -> M' p t ->
  In (mkFact p t) (p_facts P) \/ M' (ad_pred ad) (pick (ad_pattern ad) t).
Proof. intros B ads P P' M' WH WF OK TP SM' p ad t L N A H. eapply (only_asked B ads P P' M'); eauto. Qed.
Print Assumptions C62_relevant_partial.

(** The demand rules of a rule are found exactly when all demands can be computed;
    otherwise the rule gets none. *)
Theorem C62_sips : forall ads r r', tr ads r = Some r' ->
  (forall p ad, lookup p ads = Some ad -> lookup (ad_pred ad) ads = None) ->
  (generate_sips (base_of ads (r_body r')) (to_ground_of ads (r_body r')) = Some None <-> ~ passes ads true r) /\
  (~ passes ads true r -> generate_demand_rules ads r' = Some []).
Proof.
  intros ads r r' T N. destruct (sips_fails ads r r' T N) as [A _]. split; [exact A|]. intros H. apply A in H.
  unfold generate_demand_rules. rewrite H. reflexivity.
Qed.
Print Assumptions C62_sips.

(** The body of a demand rule has exactly the literals that come before it whose
    variables get values from its atoms and assignments ([gk]). *)
Definition reads_of (l : lit) : list var :=
  match l with
  | LAssign _ e => aexpr_vars e
  | LBin _ a b => tvar a ++ tvar b
  | LNot t => tvar t
  | _ => []
  end.
Theorem C62_demand_body : forall base o r, demand_rule base o = Some [r] ->
  forall l, In l (r_body r) <-> In l base /\ forall v, In v (reads_of l) -> gk base v.
Proof.
  intros base o r E l. unfold demand_rule, remove_ungrounded in E. destruct (grounded_spec base) as (g & Eg & G). rewrite Eg in E. cbn [obnd] in E.
  match type of E with context [is_identity ?b _] => destruct (is_identity b (od_atom o)); [discriminate|] end. injection E as <-. cbn [r_body].
  assert (A : forall vs, forallb (fun v => memb v g) vs = true <-> forall v, In v vs -> gk base v).
  { intros vs. rewrite forallb_forall. split; intros H v I; specialize (H v I); [apply G; apply memb_In; exact H|apply memb_In; apply G; exact H]. }
  rewrite filter_In. destruct l; cbn [reads_of]; rewrite ?A; (tauto || (split; [intros (J & _); split; [exact J|intros ? []]|tauto])).
Qed.
Print Assumptions C62_demand_body.

(** The transformation succeeds unless a relation on demand is defined by a rule
    with a disjunctive head. *)
Lemma demand_rule_total : forall base o, exists l, demand_rule base o = Some l.
Proof.
  intros base o. unfold demand_rule, remove_ungrounded. destruct (grounded_spec base) as (g & -> & _). cbn [obnd].
  match goal with |- context [is_identity ?b _] => destruct (is_identity b (od_atom o)) end; eauto.
Qed.
Lemma demand_of_total : forall ads r, exists d, demand_of ads r = Some d.
Proof.
  intros ads r. unfold demand_of. destruct (contains_on_demand ads r); [|eauto]. unfold generate_demand_rules, generate_sips.
  destruct (sips_spec (S (List.length (to_ground_of ads (r_body r)))) (base_of ads (r_body r)) (to_ground_of ads (r_body r))) as
    [(_ & arcs & -> & _)|(_ & ->)]; [lia| |]; cbn [obnd]; [|eauto].
  destruct (@omap_total _ _ arc_rules arcs) as (m & ->); [|cbn [obnd]; eauto].
  intros a _. unfold arc_rules. destruct (@omap_total _ _ (demand_rule (arc_lhs a)) (arc_rhs a)) as (m & ->); [|cbn [obnd]; eauto].
  intros o _. apply demand_rule_total.
Qed.
Theorem C62_total : forall ads P, (exists P', demand_transform_with ads P = Some P') <->
  (forall r, In r (p_rules P) -> lookup (r_pred r) ads <> None -> exists h, r_head r = HAtom h).
Proof.
  intros ads P. split.
  - intros [P' E] r Hr L. destruct (transform_spec _ _ _ E) as (_ & _ & H & _). destruct (H r Hr) as (r' & d & T & _).
    destruct (tr_shape _ _ _ T) as [_ [[L' _]|(ad & h & _ & Hh & _)]]; [contradiction|eauto].
  - intros H. unfold demand_transform_with. destruct ads as [|a ads]; [eauto|].
    enough (X : exists x, transform_rules (a :: ads) (p_rules P) = Some x).
    { destruct X as [[[ts ds] os] ->]. cbn [obnd]. eauto. }
    induction (p_rules P) as [|r rs IH]; [cbn; eauto|]. cbn [transform_rules].
    destruct IH as [[[ts ds] os] E]; [intros x Hx; apply H; right; exact Hx|].
    destruct (lookup (r_pred r) (a :: ads)) as [ad|] eqn:L.
    + destruct (H r (or_introl eq_refl)) as [h Hh]; [rewrite L; discriminate|]. unfold transform_on_demand_rule. rewrite Hh. cbn [obnd].
      destruct (demand_of_total (a :: ads) (mkRule (HAtom h) (r_body r ++ [LAtom (mkAtom (ad_pred ad) (pick (ad_pattern ad) (a_args h)))]))) as [d ->].
      cbn [obnd]. rewrite E. cbn [obnd]. eauto.
    + destruct (demand_of_total (a :: ads) r) as [d ->]. cbn [obnd]. rewrite E. cbn [obnd]. eauto.
Qed.
Print Assumptions C62_total.

(** The adornments are those of the attributes. *)
Fixpoint letters (p : pattern) : String.string :=
  match p with
  | [] => String.EmptyString
  | b :: p => String.String (if b then Ascii.ascii_of_nat 98 else Ascii.ascii_of_nat 102) (letters p)
  end.
Lemma pattern_of_spec : forall s p, pattern_of s = Some p <-> s = letters p.
Proof.
  induction s as [|c s IH]; intros p; cbn [pattern_of].
  - split; [intros E; injection E as <-; reflexivity|]. destruct p as [|b p]; [reflexivity|discriminate].
  - split.
    + intros E. destruct (pattern_of s) as [q|]; [|discriminate]. cbn [obnd] in E. pose proof (proj1 (IH q) eq_refl) as ->.
      destruct (Ascii.eqb c _) eqn:Q1 in E; [apply Ascii.eqb_eq in Q1; subst; injection E as <-; reflexivity|].
      destruct (Ascii.eqb c _) eqn:Q2 in E; [apply Ascii.eqb_eq in Q2; subst; injection E as <-; reflexivity|discriminate].
    + intros E. destruct p as [|b p]; [discriminate|]. cbn in E. injection E as -> ->. rewrite (proj2 (IH p) eq_refl). destruct b; reflexivity.
Qed.
Theorem C62_adornments : forall attr arity dname rels ads, NoDup (map b_pred rels) -> collect_adornments attr arity dname rels = Some ads ->
  forall p ad, lookup p ads = Some ad <->
    In p (map b_pred rels) /\ attr p = Some (letters (ad_pattern ad)) /\ List.length (ad_pattern ad) = arity p /\ ad_pred ad = dname p (ad_pattern ad).
Proof.
  intros attr arity dname. induction rels as [|b rels IH]; intros ads N E p ad; cbn [collect_adornments] in E.
  - injection E as <-. cbn. split; [discriminate|tauto].
  - cbn in N. inversion N as [|x l N1 N2]; subst x l. destruct (attr (b_pred b)) as [s|] eqn:A.
    + destruct (pattern_of s) as [q|] eqn:Q; [|discriminate]. cbn [obnd] in E.
      destruct (arity (b_pred b) =? List.length q) eqn:Z; [|discriminate]. apply Nat.eqb_eq in Z.
      destruct (collect_adornments attr arity dname rels) as [l|] eqn:C; [|discriminate]. cbn [obnd] in E. injection E as <-.
      apply pattern_of_spec in Q. cbn [lookup map]. destruct (p =? b_pred b) eqn:Ep.
      * apply Nat.eqb_eq in Ep. subst p. split.
        -- intros H. injection H as <-. cbn. rewrite A, Q. auto.
        -- intros (_ & H1 & H2 & H3). rewrite A in H1. injection H1 as H1. rewrite Q in H1.
           apply pattern_of_spec in H1. rewrite (proj2 (pattern_of_spec (letters q) q) eq_refl) in H1. injection H1 as ->.
           f_equal. destruct ad. cbn in *. congruence.
      * apply Nat.eqb_neq in Ep. rewrite (IH l N2 eq_refl p ad). split; [intros (H & R); split; [right; exact H|exact R]|].
        intros ([H|H] & R); [congruence|]. split; [exact H|exact R].
    + rewrite (IH ads N2 E p ad). cbn. split; [intros (H & R); split; [right; exact H|exact R]|].
      intros ([H|H] & R & R'); [subst; congruence|]. split; [exact H|split; [exact R|exact R']].
Qed.
Print Assumptions C62_adornments.

(** When the relations on demand and the heads of the rules that ask for them are on
    one level, the new program is stratified too and so has a model. *)
Lemma demand_name_dec : forall ads p, {demand_name ads p} + {~ demand_name ads p}.
Proof.
  intros ads p. destruct (existsb (fun x => match lookup (fst x) ads with Some ad => Nat.eqb (ad_pred ad) p | None => false end) ads) eqn:E.
  - left. apply existsb_exists in E. destruct E as ([q e] & _ & E). cbn in E. destruct (lookup q ads) as [ad|] eqn:L; [|discriminate].
    apply Nat.eqb_eq in E. exists q, ad. auto.
  - right. intros (q & ad & L & E').
    assert (X : exists e, In (q, e) ads).
    { clear E. revert L. generalize ads. intros l. induction l as [|[w e] l IH]; [discriminate|]. cbn. destruct (q =? w) eqn:Q.
      - apply Nat.eqb_eq in Q. subst. intros _. exists e. left. reflexivity.
      - intros H. destruct (IH H) as [e' H']. exists e'. right. exact H'. }
    destruct X as [e X]. enough (existsb (fun x => match lookup (fst x) ads with Some ad => Nat.eqb (ad_pred ad) p | None => false end) ads = true) by congruence.
    apply existsb_exists. exists (q, e). split; [exact X|]. cbn. rewrite L. apply Nat.eqb_eq. exact E'.
Qed.

Lemma functors_tr : forall ads P r r', demand_ok ads P -> In r (p_rules P) -> tr ads r = Some r' ->
  functor_preds P r' = functor_preds P r.
Proof.
  intros ads P r r' OK Hr T. destruct (tr_shape _ _ _ T) as [_ [[_ ->]|(ad & h & L & Hh & E)]]; [reflexivity|].
  destruct (ok_foreign _ _ OK _ _ L) as (_ & F & _). unfold functor_preds, needs_dyn_entity, new_functors. rewrite E, existsb_app, flat_map_app.
  cbn. rewrite F. cbn. rewrite orb_false_r, app_nil_r. reflexivity.
Qed.

Theorem C62_stratified_partial : forall ads P P' σ L, stratified P σ -> demand_ok ads P ->
  (forall p ad, lookup p ads = Some ad -> σ p = L) ->
  (forall r a ad, In r (p_rules P) -> on_demand ads (r_body r) a ad -> σ (r_pred r) = L) ->
  (forall r, In r (p_rules P) -> ~ demand_name ads (r_pred r) /\ forall f, In f (functor_preds P r) -> ~ demand_name ads f) ->
  demand_transform_with ads P = Some P' ->
  stratified P' (fun p => if demand_name_dec ads p then L else σ p).
Proof.
  intros ads P P' σ L St OK Lp Lr Nh TP. set (σ' := fun p : pred => if demand_name_dec ads p then L else σ p). intros x Hx.
  assert (Y1 : forall p, demand_name ads p -> σ' p = L) by (intros p H; unfold σ'; destruct (demand_name_dec ads p); tauto).
  assert (Y2 : forall p, ~ demand_name ads p -> σ' p = σ p) by (intros p H; unfold σ'; destruct (demand_name_dec ads p); tauto).
  assert (NA : forall p ad, lookup p ads = Some ad -> lookup (ad_pred ad) ads = None) by (intros p ad H; apply (ok_foreign _ _ OK p ad H)).
  destruct (transform_spec _ _ _ TP) as (Er & _ & _ & Hsp).
  assert (Old : forall r q b, In r (p_rules P) -> reads P r q b -> σ' q <= σ (r_pred r) /\ (b = true -> σ' q < σ (r_pred r))).
  { intros r q b Hr Rq. rewrite Y2; [|eapply ok_fresh; eauto]. destruct (St r Hr) as [Rd _]. apply Rd. exact Rq. }
  (* a literal of the body of a transformed rule *)
  assert (Rd' : forall r r' x q b, In r (p_rules P) -> tr ads r = Some r' -> incl (r_body x) (r_body r') -> reads P' x q b ->
     (σ' q <= σ (r_pred r) /\ (b = true -> σ' q < σ (r_pred r)))).
  { intros r r' y q b Hr T Iy Rq.
    assert (Bd : forall l, In l (r_body y) -> In l (r_body r) \/ exists ad h, lookup (r_pred r) ads = Some ad /\ l = LAtom (mkAtom (ad_pred ad) h)).
    { intros l Hl. apply Iy in Hl. destruct (tr_shape _ _ _ T) as [_ [[_ E]|(e & h & La & _ & E)]]; rewrite E in Hl; [auto|].
      apply in_app_or in Hl. destruct Hl as [Hl|[Hl|[]]]; [auto|]. right. exists e. eexists. split; [exact La|]. symmetry. exact Hl. }
    destruct Rq as [a Ha F|a Ha F|d Hd|d a Hd G]; [rewrite Er in F|rewrite Er in F| |].
    - destruct (Bd _ Ha) as [H|(ad & h & La & E)].
      + apply (Old r); [exact Hr|]. apply reads_pos; auto.
      + injection E as ->. cbn. rewrite Y1; [|exists (r_pred r), ad; auto]. rewrite (Lp _ _ La). split; [lia|discriminate].
    - destruct (Bd _ Ha) as [H|(ad & h & La & E)]; [|discriminate]. apply (Old r); [exact Hr|]. apply reads_neg; auto.
    - destruct (Bd _ Hd) as [H|(ad & h & La & E)]; [|discriminate]. apply (Old r); [exact Hr|]. apply reads_red; auto.
    - destruct (Bd _ Hd) as [H|(ad & h & La & E)]; [|discriminate]. apply (Old r); [exact Hr|]. eapply reads_grp; eauto. }
  destruct (Hsp x Hx) as [(r & Hr & T)|(r & r' & d & Hr & T & Ed & Hd)].
  - assert (Ep : r_pred x = r_pred r) by (unfold r_pred; destruct (tr_shape _ _ _ T) as [-> _]; reflexivity).
    destruct (Nh r Hr) as [N1 N2]. rewrite Ep, (Y2 _ N1). split.
    + intros q b Rq. apply (Rd' r x x q b Hr T (incl_refl _) Rq).
    + intros f Hf. replace (functor_preds P' x) with (functor_preds P x) in Hf by (unfold functor_preds; rewrite Er; reflexivity).
      rewrite (functors_tr ads P r x OK Hr T) in Hf. rewrite (Y2 _ (N2 f Hf)). destruct (St r Hr) as [_ Fu]. auto.
  - unfold demand_of in Ed. destruct (contains_on_demand ads r') eqn:C; [|injection Ed as <-; contradiction].
    assert (O : exists a ad, on_demand ads (r_body r) a ad).
    { apply existsb_exists in C. destruct C as (l & Hl & C).
      destruct l as [a|a| | | | | |]; try discriminate; (destruct (lookup (a_pred a) ads) as [ad|] eqn:La; [|discriminate]);
        exists a, ad; apply (on_demand_tr ads r r' T NA); split; auto. }
    destruct (ok_ents _ _ OK r Hr (or_intror O)) as [En Edy].
    destruct (rule_arcs ads r r' T NA (ok_pass _ _ OK r Hr)) as (arcs & Eg & Ly & Inc).
    unfold generate_demand_rules in Ed. rewrite Eg in Ed. cbn [obnd] in Ed.
    destruct (omap arc_rules arcs) as [dl|] eqn:Edl; [|discriminate]. cbn [obnd] in Ed. injection Ed as <-.
    destruct (demand_rules_In _ _ Edl) as [_ D2]. destruct (D2 x Hd) as (arc & o & l & Ha & Ho & El & Hxl).
    destruct (demand_rule_cases _ _ _ El) as [[-> _]|(b & Ib & ->)]; [contradiction|]. destruct Hxl as [<-|[]].
    assert (Hto : In o (to_ground_of ads (r_body r'))) by (eapply layers_rhs; eauto).
    apply todo_In in Hto. destruct Hto as [[_ Lo] _].
    assert (Iy : incl b (r_body r')) by (intros y Hy; apply (Inc _ Ha), Ib, Hy).
    assert (Lr' : σ (r_pred r) = L) by (destruct O as (a & ad & O); eapply Lr; eauto).
    set (x := mkRule _ b) in *. assert (Ep : σ' (r_pred x) = L) by (apply Y1; exists (a_pred (od_atom o)), (od_adorn o); auto).
    rewrite Ep. split.
    + intros q b0 Rq. rewrite <- Lr'. apply (Rd' r r' x q b0 Hr T Iy Rq).
    + intros f Hf. exfalso.
      assert (K1 : new_functors x = []).
      { destruct (new_functors x) as [|y ys] eqn:Q; [reflexivity|]. exfalso. assert (H : In y (new_functors x)) by (rewrite Q; left; reflexivity).
        unfold new_functors in H. apply in_flat_map in H. destruct H as (l & Hl & H). destruct l as [| |v e| | | | |]; try contradiction.
        destruct e; try contradiction. apply Iy in Hl. destruct (tr_shape _ _ _ T) as [_ [[_ E]|(e & h & La & _ & E)]]; rewrite E in Hl.
        - apply new_functor_In in Hl. rewrite En in Hl. contradiction.
        - apply in_app_or in Hl. destruct Hl as [Hl|[Hl|[]]]; [|discriminate]. apply new_functor_In in Hl. rewrite En in Hl. contradiction. }
      assert (K2 : needs_dyn_entity (p_reg P') x = false).
      { rewrite Er. destruct (needs_dyn_entity (p_reg P) x) eqn:Q; [|reflexivity]. exfalso. apply existsb_exists in Q. destruct Q as (l & Hl & Q).
        apply Iy in Hl. assert (H : In l (r_body r)).
        { destruct (tr_shape _ _ _ T) as [_ [[_ E]|(e & h & La & _ & E)]]; rewrite E in Hl; [exact Hl|].
          apply in_app_or in Hl. destruct Hl as [Hl|[<-|[]]]; [exact Hl|]. cbn in Q. destruct (ok_foreign _ _ OK _ _ La) as (_ & F & _). rewrite F in Q. discriminate. }
        enough (needs_dyn_entity (p_reg P) r = true) by congruence. apply existsb_exists. exists l. auto. }
      unfold functor_preds in Hf. rewrite K2, K1 in Hf. contradiction.
Qed.
Print Assumptions C62_stratified_partial.

(** *** Example *)
Definition tv2 (p : pred) (v w : var) := mkAtom p [TVar v; TVar w].
(** p(x,y) :- e(x,y).  p(x,z) :- p(x,y), e(y,z).  q(x,y) :- e(y,x).
    h(z) :- a(x), p(x,y), q(y,z), not n(z).  p and q are on demand in their first
    argument. *)
Definition C62_prog : program :=
  mkProg (map (fun p => mkRel p false) [0; 1; 2; 3; 4; 5]) [4]
    [mkFact 0 [I32 2]; mkFact 5 [I32 1; I32 2]; mkFact 5 [I32 2; I32 3]; mkFact 5 [I32 7; I32 8]; mkFact 3 [I32 1]]
    [mkRule (HAtom (tv2 1 0 1)) [LAtom (tv2 5 0 1)];
     mkRule (HAtom (tv2 1 0 2)) [LAtom (tv2 1 0 1); LAtom (tv2 5 1 2)];
     mkRule (HAtom (tv2 2 0 1)) [LAtom (tv2 5 1 0)];
     mkRule (HAtom (at1 4 2)) [LAtom (at1 0 0); LAtom (tv2 1 0 1); LAtom (tv2 2 1 2); LNeg (at1 3 2)]]
    reg_none.
Definition C62_ads : adornments := [(1, mkAdorn [true; false] 11); (2, mkAdorn [true; false] 12)].
Definition C62_prog' : program :=
  mkProg (map (fun p => mkRel p false) [0; 1; 2; 3; 4; 5; 11; 12]) [4] (p_facts C62_prog)
    [mkRule (HAtom (tv2 1 0 1)) [LAtom (tv2 5 0 1); LAtom (at1 11 0)];
     mkRule (HAtom (tv2 1 0 2)) [LAtom (tv2 1 0 1); LAtom (tv2 5 1 2); LAtom (at1 11 0)];
     mkRule (HAtom (tv2 2 0 1)) [LAtom (tv2 5 1 0); LAtom (at1 12 0)];
     mkRule (HAtom (at1 11 0)) [LAtom (tv2 5 1 2); LAtom (at1 11 0)];
     mkRule (HAtom (at1 11 0)) [LAtom (at1 0 0); LNeg (at1 3 2)];
     mkRule (HAtom (at1 12 1)) [LAtom (at1 0 0); LNeg (at1 3 2); LAtom (tv2 1 0 1)];
     mkRule (HAtom (at1 4 2)) [LAtom (at1 0 0); LAtom (tv2 1 0 1); LAtom (tv2 2 1 2); LNeg (at1 3 2)]]
    reg_none.
Definition C62_attr (p : pred) : option String.string := if (p =? 1) || (p =? 2) then Some (letters [true; false]) else None.
Example C62_ex_shape : demand_transform C62_attr (fun _ => 2) (fun p _ => 10 + p) C62_prog = Some C62_prog'.
Proof. vm_compute. reflexivity. Qed.

Ltac rules H := cbn in H; repeat (destruct H as [<-|H]; [|]); [..|contradiction].
(** What holds in a stable model of a program that builds no entities. *)
Lemma stable_inv : forall B P M p t, forallb (fun r => match new_functors r with [] => true | _ => false end) (p_rules P) = true ->
  g_adts (p_reg P) = [] -> stable B P M -> M p t ->
  In (mkFact p t) (p_facts P) \/ exists r s a, In r (p_rules P) /\ body_sat B (p_reg P) M M s (r_body r) /\
    In a (head_atoms (r_head r)) /\ p = a_pred a /\ t = tvals s (a_args a).
Proof.
  intros B P M p t NF NE SM H. apply SM in H. rewrite forallb_forall in NF. destruct H as [f Hf|r s p t Hr Hp Ho Y]; [left; destruct f; exact Hf|].
  right. exists r, s. assert (Bs : body_sat B (p_reg P) M M s (r_body r)).
  { intros l Hl. specialize (Ho l Hl). destruct l as [a| | | | | | |]; cbn in *; auto. destruct (g_foreign (p_reg P) (a_pred a)) eqn:F; [auto|].
    apply SM. apply Hp; auto. }
  destruct Y as [a Ha|v f l Hl|v f l q t Hl Ef A C|a q t Ha Fo Fe A C]; [exists a; auto| | |]; exfalso.
  - apply new_functor_In in Hl. specialize (NF r Hr). destruct (new_functors r); [contradiction|discriminate].
  - rewrite NE in A. contradiction.
  - rewrite NE in A. contradiction.
Qed.
Lemma stable_rule : forall B P M r s a, stable B P M -> In r (p_rules P) -> body_sat B (p_reg P) M M s (r_body r) ->
  In a (head_atoms (r_head r)) -> M (a_pred a) (tvals s (a_args a)).
Proof.
  intros B P M r s a SM Hr Bs Ha. apply SM. apply der_rule with (r := r) (s := s); auto.
  - intros b Hb F. apply SM. specialize (Bs _ Hb). cbn in Bs. rewrite F in Bs. exact Bs.
  - intros l Hl. specialize (Bs l Hl). destruct l; cbn in *; auto. intros F. rewrite F in Bs. exact Bs.
  - constructor. exact Ha.
Qed.
Lemma stable_fact : forall B P M f, stable B P M -> In f (p_facts P) -> M (f_pred f) (f_args f).
Proof. intros B P M f SM H. apply SM. constructor. exact H. Qed.

Lemma C62_ex_ok : demand_ok C62_ads C62_prog.
Proof.
  assert (NEG : forall r, In r (p_rules C62_prog) -> forall a, In (LNeg a) (r_body r) -> lookup (a_pred a) C62_ads = None).
  { intros r Hr a Ha. rules Hr; cbn in Ha; repeat destruct Ha as [Ha|Ha]; try discriminate; try contradiction; injection Ha as <-; reflexivity. }
  constructor.
  - intros p ad H. cbn in H. do 2 (destruct (p =? _) in H; [injection H as <-; auto|]). discriminate.
  - intros r q b Hr Rq (q' & ad & L & E). cbn in L.
    assert (Q : q = 11 \/ q = 12) by (do 2 (destruct (q' =? _) in L; [injection L as <-; cbn in E; auto|]); discriminate).
    clear E L. rules Hr; inversion Rq as [a Ha F|a Ha F|d Hd|d a Hd G]; subst;
      try (cbn in Ha; repeat destruct Ha as [Ha|Ha]; try discriminate; try contradiction; injection Ha as Ha; subst a; cbn in Q; lia);
      cbn in Hd; repeat destruct Hd as [Hd|Hd]; try discriminate; contradiction.
  - intros r d Hr Hd. rules Hr; cbn in Hd; repeat destruct Hd as [Hd|Hd]; try discriminate; contradiction.
  - intros r Hr _. rules Hr; split; reflexivity.
  - intros r Hr. right. split; [|apply NEG; exact Hr]. intros a ad v [Ho L] N. unfold needed in N. rules Hr.
    + cbn in Ho. destruct Ho as [[Ho|[]]|[Ho|[]]]; [|discriminate]. injection Ho as <-. discriminate.
    + destruct Ho as [[Ho|[Ho|[]]]|[Ho|[Ho|[]]]]; try discriminate; injection Ho as <-; [|discriminate].
      cbn in L. injection L as <-. destruct N as [N|[]]. injection N as <-.
      eapply k_entry; [reflexivity|reflexivity|left; reflexivity].
    + cbn in Ho. destruct Ho as [[Ho|[]]|[Ho|[]]]; [|discriminate]. injection Ho as <-. discriminate.
    + set (r4 := mkRule _ _).
      assert (K0 : known C62_ads true r4 0) by (apply (k_atom C62_ads true r4 (at1 0 0) 0); [left; reflexivity|reflexivity|left; reflexivity]).
      assert (K1 : known C62_ads true r4 1).
      { apply (k_pass C62_ads true r4 (tv2 1 0 1) (mkAdorn [true; false] 11) 1); [reflexivity| | |right; left; reflexivity].
        - split; [left; right; left; reflexivity|reflexivity].
        - intros w [W|[]]. injection W as <-. exact K0. }
      destruct Ho as [Ho|Ho]; cbn in Ho; repeat destruct Ho as [Ho|Ho]; try discriminate; try contradiction; injection Ho as <-;
        cbn in L; try discriminate; injection L as <-; destruct N as [N|[]]; injection N as <-; assumption.
Qed.
Lemma C62_ex_strat : stratified C62_prog (fun p => if (p =? 1) || (p =? 2) || (p =? 4) then 1 else 0) /\ wf_heads C62_prog /\ wf_functors C62_prog.
Proof.
  split; [|split].
  - intros r Hr. split.
    + intros q b Rq. rules Hr; inversion Rq as [a Ha F|a Ha F|d Hd|d a Hd G]; subst.
      all: try (cbn in Hd; repeat destruct Hd as [Hd|Hd]; try discriminate; contradiction).
      all: cbn in Ha; repeat destruct Ha as [Ha|Ha]; try discriminate; try contradiction.
      all: injection Ha as Ha; subst a.
      all: cbn; split; [lia|intros; try congruence; lia].
    + intros f Hf. rules Hr; contradiction.
  - intros r a Hr Ha. rules Hr; cbn in Ha; destruct Ha as [<-|[]]; reflexivity.
  - intros r v f l Hr Hl. rules Hr; cbn in Hl; repeat destruct Hl as [Hl|Hl]; try discriminate; contradiction.
Qed.
Example C62_ex : exists M M', stable benv_none C62_prog M /\ stable benv_none C62_prog' M' /\
  (forall t, M' 4 t <-> M 4 t) /\ (forall v, M' 1 [I32 2; v] <-> M 1 [I32 2; v]) /\ M 1 [I32 7; I32 8] /\ ~ M' 1 [I32 7; I32 8].
Proof.
  destruct C62_ex_strat as (St & WH & WF).
  assert (TP : demand_transform_with C62_ads C62_prog = Some C62_prog') by (vm_compute; reflexivity).
  assert (St' : stratified C62_prog' (fun p => if demand_name_dec C62_ads p then 1 else if (p =? 1) || (p =? 2) || (p =? 4) then 1 else 0)).
  { apply (C62_stratified_partial C62_ads C62_prog C62_prog' _ 1 St C62_ex_ok); [| | |exact TP].
    - intros p ad L. cbn in L. destruct (p =? 1) eqn:E1; [reflexivity|]. destruct (p =? 2) eqn:E2; [reflexivity|discriminate].
    - intros r a ad Hr [Ho L]. rules Hr; try reflexivity.
    - intros r Hr. assert (N : forall p, p <> 11 -> p <> 12 -> ~ demand_name C62_ads p).
      { intros p N1 N2 (q & ad & L & E). cbn in L. do 2 (destruct (q =? _) in L; [injection L as <-; cbn in E; congruence|]). discriminate. }
      rules Hr; (split; [apply N; discriminate|intros f []]). }
  destruct (stable_exists benv_none _ _ St WH WF) as [M SM].
  destruct (stable_exists benv_none _ _ St') as [M' SM'].
  { intros r a Hr Ha. rules Hr; cbn in Ha; destruct Ha as [<-|[]]; reflexivity. }
  { intros r v f l Hr Hl. rules Hr; cbn in Hl; repeat destruct Hl as [Hl|Hl]; try discriminate; contradiction. }
  exists M, M'. split; [exact SM|]. split; [exact SM'|].
  assert (N : forall p, p <> 11 -> p <> 12 -> ~ demand_name C62_ads p).
  { intros p N1 N2 (q & ad & L & E). cbn in L. do 2 (destruct (q =? _) in L; [injection L as <-; cbn in E; congruence|]). discriminate. }
  destruct (C62_demand_partial benv_none _ _ _ _ M M' St WH WF C62_ex_ok TP SM SM') as (D1 & D2 & D3).
  assert (D : forall p t, p <> 11 -> p <> 12 -> M' p t -> M p t) by (intros; apply D1; auto).
  split; [|split; [|split]].
  - intros t. split; [apply D; discriminate|]. apply D2; [apply N; discriminate|reflexivity].
  - intros v. split; [apply D; discriminate|]. apply (D3 1 (mkAdorn [true; false] 11)); [reflexivity|]. cbn.
    apply (stable_rule _ _ M' (mkRule (HAtom (at1 11 0)) [LAtom (at1 0 0); LNeg (at1 3 2)]) (fun _ => I32 2) (at1 11 0) SM');
      [cbn; auto 10| |left; reflexivity].
    intros l [<-|[<-|[]]]; cbn.
    + apply (stable_fact _ _ M' (mkFact 0 [I32 2]) SM'). left. reflexivity.
    + intros H.
      destruct (stable_inv benv_none C62_prog' M' _ _ eq_refl eq_refl SM' H) as [F|(r & s & a & Hr & _ & Ha & Ep & _)].
      * cbn in F; repeat destruct F as [F|F]; try discriminate; contradiction.
      * rules Hr; cbn in Ha; destruct Ha as [<-|[]]; discriminate.
  - apply (stable_rule _ _ M (mkRule (HAtom (tv2 1 0 1)) [LAtom (tv2 5 0 1)]) (fun v => if v =? 0 then I32 7 else I32 8) (tv2 1 0 1) SM);
      [left; reflexivity| |left; reflexivity].
    intros l [<-|[]]. apply (stable_fact _ _ M (mkFact 5 [I32 7; I32 8]) SM). cbn. auto.
  - intros H. destruct (C62_relevant_partial benv_none _ _ _ M' WH WF C62_ex_ok TP SM' 1 (mkAdorn [true; false] 11) [I32 7; I32 8] eq_refl) as [F|F];
      [apply N; discriminate|intros []|exact H| |].
    + cbn in F; repeat destruct F as [F|F]; try discriminate; contradiction.
    + cbn in F. apply SM' in F.
      assert (Z : forall p t, der benv_none C62_prog' M' p t -> p = 11 \/ p = 0 -> t = [I32 2]).
      { clear. intros p t D. induction D as [f Hf|r s p t Hr Hp IH Ho Y]; intros Ep.
        - rules Hf; cbn in *; destruct Ep; try discriminate; reflexivity.
        - assert (Q : exists a, In a (head_atoms (r_head r)) /\ p = a_pred a /\ t = tvals s (a_args a)).
          { destruct Y as [a Ha|v0 f l Hl|v0 f l q t Hl Ef A C|a q t Ha Fo Fe A C]; [exists a; auto| |contradiction|contradiction].
            exfalso. rules Hr; cbn in Hl; repeat destruct Hl as [Hl|Hl]; try discriminate; contradiction. }
          destruct Q as (a & Ha & -> & ->). clear Y Ho. rules Hr; cbn in Ha; destruct Ha as [<-|[]]; cbn in Ep; destruct Ep; try discriminate.
          + apply (IH (at1 11 0)); [right; left; reflexivity|reflexivity|left; reflexivity].
          + apply (IH (at1 0 0)); [left; reflexivity|reflexivity|right; reflexivity]. }
      specialize (Z _ _ F (or_introl eq_refl)). discriminate.
Qed.
