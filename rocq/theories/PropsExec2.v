(** Properties C40 and C41: histories of a context, and running again. *)
From Coq Require Import List Arith Bool ZArith Lia.
From Verif Require Import Order Value Prov ListAux SortedCol GallopFacts SortedColFacts ProvInst
  PropsCollections Schedulers Relation View SchedFacts Dataflow OpFacts Denote DataflowFacts DenFacts
  Iteration IterationFacts Views SchedLinear PropsEval PropsRun Back Eval Ram PropsExpr Scc Dedup Increm SccFacts Exec PropsExec.
Import ListNotations.
Set Implicit Arguments.
Local Open Scope nat_scope.

Section Ctx.
  Variable P : Prov.
  Variables IT X : Type.
  Notation elem := (elem P).
  Notation ctx := (ctx P IT X).
  Variable E : rtenv P IT X.

  (** The parts of a run with a given program. *)
  Definition run_parts (inc : bool) (fuel : nat) (p : xprog IT) (c c' : ctx) : Prop :=
    exists d1 d2 x2 i1, populate (x_edb c) (xrels p) = Some d1 /\ internalize E (x_tag c) d1 = (d2, x2) /\
      deps_known p = true /\ known (flat p) = true /\
      exec_strata E inc fuel p 0 p (ecols (tap_imm p d2)) [] = Some i1 /\
      finish inc (xrels p) (tap_imm p d2) i1 = (x_edb c', x_idb c') /\
      c' = mkCtx (x_edb c') true (x_idb c') p x2.
  Lemma known_empty : known (mkRP [] []) = true. Proof. reflexivity. Qed.
  Lemma execute_parts : forall inc fuel p (c c' : ctx),
    execute E inc fuel (Some p) c = Some c' <-> run_parts inc fuel p c c'.
  Proof.
    intros inc fuel p c c'. unfold execute, run_parts.
    assert (F0 : forall l : idb P, filter (fun x : nat * list elem => memb (fst x) []) l = []).
    { induction l; cbn; auto. }
    assert (PK : forall need, persistent fuel (mkRP [] []) (flat p) need = if known (flat p) then Some [] else None).
    { intros need. unfold persistent. rewrite known_empty. cbn [andb]. destruct (known (flat p)); auto.
      assert (F : fringe0 (mkRP [] []) = []) by reflexivity. rewrite F. destruct fuel; reflexivity. }
    destruct (populate (x_edb c) (xrels p)) as [d1|]; [|split; [discriminate|intros (? & ? & ? & ? & H & _); discriminate]].
    rewrite PK. destruct (known (flat p)) eqn:KN.
    2: { split; [discriminate|]. intros (? & ? & ? & ? & _ & _ & _ & H & _); discriminate. }
    rewrite F0. destruct (internalize E (x_tag c) d1) as [d2 x2] eqn:IN. destruct (deps_known p).
    2: { split; [discriminate|]. intros (? & ? & ? & ? & _ & _ & H & _); discriminate. }
    destruct (exec_strata E inc fuel p 0 p (ecols (tap_imm p d2)) []) as [i1|] eqn:XS.
    2: { split; [discriminate|]. intros (d1' & d2' & x2' & i1 & A & B & _ & _ & H & _).
         injection A as <-. rewrite IN in B. injection B as <- <-. congruence. }
    destruct (finish inc (xrels p) (tap_imm p d2) i1) as [d4 i2] eqn:FI. split.
    - intros H. injection H as <-. exists d1, d2, x2, i1. cbn. auto 10.
    - intros (d1' & d2' & x2' & i1' & A & B & _ & _ & C & D & F).
      injection A as <-. rewrite IN in B. injection B as <- <-. rewrite XS in C. injection C as <-.
      rewrite FI in D. injection D as -> ->. rewrite F. reflexivity.
  Qed.

  (** ** Histories in incremental mode *)
  Inductive op :=
  | OAdd (dynamic : bool) (r : nat) (fs : list (option IT * tuple))
  | ORun (fuel : nat) (p : xprog IT).
  Definition do_op (o : op) (c : ctx) : option ctx :=
    match o with
    | OAdd dyn r fs => Some (mkCtx ((if dyn then @add_dynamic P IT else @add_static P IT) r fs (x_edb c))
                               (x_edbdone c) (x_idb c) (x_prog c) (x_tag c))
    | ORun fuel p => execute E true fuel (Some p) c
    end.
  Fixpoint do_ops (h : list op) (c : ctx) : option ctx :=
    match h with [] => Some c | o :: h => match do_op o c with Some c' => do_ops h c' | None => None end end.
  (** What has been supplied so far. *)
  Definition supplied (h : list op) (r : nat) (t : tuple) : Prop :=
    (exists dyn fs o u, In (OAdd dyn r fs) h /\ In (o, u) fs /\ c_intern E u = Some t) \/
    (exists fuel p, In (ORun fuel p) h /\ prog_fact E p r t).

  Lemma run_stored : forall fuel p (c c' : ctx), NoDup (map (@x_name IT) (xrels p)) ->
    execute E true fuel (Some p) c = Some c' -> forall r t,
    stored E (e_get (x_edb c') r) t <-> stored E (e_get (x_edb c) r) t \/ prog_fact E p r t.
  Proof.
    intros fuel p c c' ND H r t. apply execute_parts in H as (d1 & d2 & x2 & i1 & A & B & _ & _ & _ & F & _).
    destruct (@finish_get P IT true (xrels p) _ _ _ _ ND F) as [_ D]. rewrite (D eq_refl), tap_e_get.
    rewrite <- (@populate_stored P IT X E p _ _ A r t). apply (@internalized P IT X E _ _ _ _ B r).
  Qed.
  Definition op_ok (o : op) : Prop := match o with OAdd _ _ _ => True | ORun _ p => NoDup (map (@x_name IT) (xrels p)) end.
  Lemma do_ops_stored : forall h (c c' : ctx), Forall op_ok h -> do_ops h c = Some c' -> forall r t,
    stored E (e_get (x_edb c') r) t <-> stored E (e_get (x_edb c) r) t \/ supplied h r t.
  Proof.
    induction h as [|o h IH]; intros c c' OK H r t; cbn [do_ops] in H.
    - injection H as <-. unfold supplied. split; [auto|]. intros [A|[(? & ? & ? & ? & [] & _)|(? & ? & [] & _)]]; auto.
    - destruct (do_op o c) as [c1|] eqn:D; [|discriminate]. inversion OK as [|? ? O1 O2]; subst.
      rewrite (IH _ _ O2 H r t).
      assert (S1 : stored E (e_get (x_edb c1) r) t <-> stored E (e_get (x_edb c) r) t \/ supplied [o] r t).
      { destruct o as [dyn q fs|fuel p]; cbn [do_op op_ok] in *.
        - injection D as <-. cbn [x_edb].
          assert (G : stored E (e_get ((if dyn then @add_dynamic P IT else @add_static P IT) q fs (x_edb c)) r) t <->
                      stored E (e_get (x_edb c) r) t \/ (q = r /\ exists o u, In (o, u) fs /\ c_intern E u = Some t)).
          { destruct dyn; unfold add_dynamic, add_static; rewrite e_get_aset, Nat.eqb_sym;
              (destruct (Nat.eqb_spec q r) as [<-|N];
               [|split; [auto|intros [A|[A _]]; [auto|congruence]]]);
              unfold stored; cbn [e_prog e_dyn e_stat e_int]; split.
            - intros [A|(o & u & I & C)]; [tauto|]. rewrite !in_app_iff in I.
              destruct I as [I|[[I|I]|I]]; [| |right; eauto|]; left; right; exists o, u; rewrite !in_app_iff; auto.
            - intros [[A|(o & u & I & C)]|(_ & o & u & I & C)]; [tauto| |]; right; exists o, u; rewrite !in_app_iff in *; tauto.
            - intros [A|(o & u & I & C)]; [tauto|]. rewrite !in_app_iff in I.
              destruct I as [I|[I|[I|I]]]; [| | |right; eauto]; left; right; exists o, u; rewrite !in_app_iff; auto.
            - intros [[A|(o & u & I & C)]|(_ & o & u & I & C)]; [tauto| |]; right; exists o, u; rewrite !in_app_iff in *; tauto. }
          rewrite G. unfold supplied. split.
          + intros [A|(<- & o & u & I & C)]; [auto|]. right. left. exists dyn, fs, o, u. split; [left|]; auto.
          + intros [A|[(dyn' & fs' & o & u & [I|[]] & K)|(? & ? & [I|[]] & _)]]; [auto| |discriminate].
            injection I as <- <- <-. right. eauto.
        - rewrite (@run_stored fuel p c c1 O1 D r t). unfold supplied. split.
          + intros [A|A]; auto. right. right. exists fuel, p. split; [left|]; auto.
          + intros [A|[(? & ? & ? & ? & [I|[]] & _)|(? & ? & [I|[]] & K)]]; [auto|discriminate|].
            injection I as <- <-. auto. }
      rewrite S1. unfold supplied. split.
      + intros [[A|[(a & b & o' & u & [I|[]] & K)|(a & b & [I|[]] & K)]]|[(a & b & o' & u & I & K)|(a & b & I & K)]]; auto;
          right; [left; exists a, b, o', u|right; exists a, b|left; exists a, b, o', u|right; exists a, b];
          (split; [subst; solve [left; auto|right; auto]|auto]).
      + intros [A|[(a & b & o' & u & [I|I] & K)|(a & b & [I|I] & K)]]; auto.
        * left. right. left. exists a, b, o', u. split; [left|]; auto.
        * right. left. exists a, b, o', u. auto.
        * left. right. right. exists a, b. split; [left|]; auto.
        * right. right. exists a, b. auto.
  Qed.
End Ctx.

(** * C41: facts added between runs *)
(** In incremental mode, running a program after any history of additions and
    runs yields the stratified model of everything supplied so far. *)
Theorem C41_incremental_partial : forall (P : Prov) (IT X : Type) (E : rtenv P IT X) h x0 (c c' : ctx P IT X) fuel p (Sh : nat -> tuple -> Prop),
  rt_ok E -> xprog_ok E Sh p -> (forall r t, supplied E (h ++ [ORun fuel p]) r t -> Sh r t) -> Forall (@op_ok IT) h ->
  do_ops E h (mkCtx [] false [] [] x0) = Some c -> execute E true fuel (Some p) c = Some c' ->
  exists B M, strat_model E p B M /\
    (forall r t, (exists g, B r (t, g)) <-> supplied E (h ++ [ORun fuel p]) r t) /\
    (forall x, In x (xrels p) -> x_hidden x = false -> aget (x_name x) (x_idb c') = M (x_name x)).
Proof.
  intros P IT X E h x0 c c' fuel p Sh RT OK SH HO D R.
  assert (EQ : forall r t, stored E (e_get (x_edb c) r) t \/ prog_fact E p r t <-> supplied E (h ++ [ORun fuel p]) r t).
  2: { destruct (@C50_stratified_model P IT X E true fuel p Sh c c' RT OK (fun r t H => SH r t (proj1 (EQ r t) H)) R) as (B & M & S & F & O).
       exists B, M. split; [exact S|split; [|exact O]]. intros r t. rewrite F. apply EQ. }
  intros r t. rewrite (@do_ops_stored P IT X E h _ c HO D r t). cbn [x_edb]. unfold stored at 1. cbn.
  unfold supplied. split.
  - intros [[[(g & [])|(? & ? & [] & _)]|[(a & b & o & u & I & K)|(a & b & I & K)]]|K].
    + left. exists a, b, o, u. rewrite in_app_iff. auto.
    + right. exists a, b. rewrite in_app_iff. auto.
    + right. exists fuel, p. rewrite in_app_iff. cbn. auto.
  - intros [(a & b & o & u & I & K)|(a & b & I & K)]; rewrite in_app_iff in I.
    + destruct I as [I|[I|[]]]; [|discriminate]. left. right. left. eauto 10.
    + destruct I as [I|[I|[]]]; [left; right; right; eauto|]. injection I as <- <-. auto.
Qed.
Print Assumptions C41_incremental_partial.

(** ** Example: transitive closure with a negation on top, in three strata *)
Definition xlenv (P : Prov) : lenv P :=
  @mkLenv P env0 (fun _ _ => None) (fun _ _ => []) (fun _ _ => None) (fun _ _ => []) (fun _ _ _ => []).
Definition xE (P : Prov) : rtenv P (ptag P) nat :=
  mkRt (fun t => Some t) (fun x o => (match o with Some g => g | None => pone P end, x)) false None false LFP (fun _ => xlenv P).
Definition xrel0 (P : Prov) (r : nat) (imm hidden : bool) : xrel (ptag P) := mkXR r [] imm hidden false None.
Definition xtc (P : Prov) : xprog (ptag P) :=
  [ mkXS [mkXR 0 [(None, t2 0 1)] true true false None; xrel0 P 3 true false] [];
    mkXS [xrel0 P 1 false false; xrel0 P 2 false true]
      [ (1, RRel 0);
        (2, RProject (RRel 1) (XTuple [XAccess (acc_index 1); XAccess (acc_index 0)]));
        (1, RProject (RJoin (RRel 2) (RRel 0)) (XTuple [XAccess (acc_index 1); XAccess (acc_index 2)])) ];
    mkXS [xrel0 P 4 false false] [ (4, RDiff (RRel 1) (RRel 3)) ] ].
Lemma xE_ok : forall P : Prov, rt_ok (xE P).
Proof. intros P. split; cbn; congruence. Qed.
Lemma xtc_ok : forall P : Prov, minus_ok (set_view P) -> xprog_ok (xE P) any_shape (xtc P).
Proof.
  intros P MO. split.
  - cbn. repeat constructor; cbn; intuition lia.
  - intros s u I J. cbn in I. destruct I as [<-|[<-|[<-|[]]]]; cbn in J; intuition (subst; cbn; auto).
  - intros s col I C R CS _ u J. rewrite <- (and_assoc (wf _ _ _ _)). split; [|intros; exact Logic.I].
    cbn in I. destruct I as [<-|[<-|[<-|[]]]]; cbn in J; [destruct J|destruct J as [<-|[<-|[<-|[]]]]|destruct J as [<-|[]]];
      cbn; repeat split; auto.
    + eapply R; [left; reflexivity|cbn; auto|]. intros [K _]. cbn in K. intuition discriminate.
    + eapply R; [left; reflexivity|cbn; auto|]. intros [K _]. cbn in K. intuition discriminate.
  - intros x I. cbn in I. intuition (subst; cbn; discriminate).
Qed.
(** Edges 0-1 (from the program), 1-2, then 2-3 added after a first run; the pair
    0-3 is blocked. *)
Definition xh : list (op unit) :=
  [OAdd true 0 [(None, t2 1 2)]; ORun 20 (xtc unit_prov); OAdd false 0 [(None, t2 2 3)]; OAdd true 3 [(None, t2 0 3)]].
Definition pairs {A} (l : list (tuple * A)) : list tuple := map fst l.
Example C41_ex :
  rt_ok (xE unit_prov) /\ xprog_ok (xE unit_prov) any_shape (xtc unit_prov) /\ Forall (@op_ok unit) xh /\
  exists c c', do_ops (xE unit_prov) xh (mkCtx [] false [] [] 0) = Some c /\
    option_map pairs (aget 4 (x_idb c)) = Some [t2 0 1; t2 0 2; t2 1 2] /\
    execute (xE unit_prov) true 20 (Some (xtc unit_prov)) c = Some c' /\
    option_map pairs (aget 4 (x_idb c')) = Some [t2 0 1; t2 0 2; t2 1 2; t2 1 3; t2 2 3].
Proof.
  split; [apply xE_ok|]. split; [apply xtc_ok, unit_minus_ok|]. split.
  - repeat constructor; cbn; intuition lia.
  - eexists. eexists. split; [vm_compute; reflexivity|]. split; [vm_compute; reflexivity|].
    split; vm_compute; reflexivity.
Qed.

Definition xcopy (P : Prov) : xprog (ptag P) :=
  [mkXS [mkXR 0 [(None, t2 0 1)] true true false None] []; mkXS [xrel0 P 1 false false] [(1, RRel 0)]].
(** Running the stored program again with [execute] does not see the added facts,
    in either mode. *)
Theorem C41_execute_refuted : forall inc : bool, exists c c' : ctx unit_prov unit nat,
  execute (xE unit_prov) inc 20 (Some (xcopy unit_prov)) (mkCtx [] false [] [] 0) = Some c /\
  execute (xE unit_prov) inc 20 None
    (mkCtx (add_dynamic 0 [(None, t2 1 2)] (x_edb c)) (x_edbdone c) (x_idb c) (x_prog c) (x_tag c)) = Some c' /\
  (* the new edge is in the database, but path still has the old pair only *)
  In (t2 1 2) (pairs (e_int (e_get (x_edb c') 0))) /\
  option_map pairs (aget 1 (x_idb c')) = Some [t2 0 1].
Proof.
  intros [|]; (eexists; eexists; split; [vm_compute; reflexivity|]; split; [vm_compute; reflexivity|];
    split; [vm_compute; tauto|vm_compute; reflexivity]).
Qed.
Print Assumptions C41_execute_refuted.
(** Outside incremental mode the facts of an input relation that is also an output
    are moved out of the database: the next run no longer has them, although it
    has the facts added in between. *)
Theorem C41_moved_refuted : exists c c' : ctx unit_prov unit nat,
  execute (xE unit_prov) false 20 (Some (xtc unit_prov))
    (mkCtx (add_dynamic 3 [(None, t2 0 1)] []) false [] [] 0) = Some c /\
  option_map pairs (aget 4 (x_idb c)) = Some [] /\
  execute (xE unit_prov) false 20 (Some (xtc unit_prov))
    (mkCtx (add_dynamic 3 [(None, t2 0 2)] (x_edb c)) (x_edbdone c) (x_idb c) (x_prog c) (x_tag c)) = Some c' /\
  option_map pairs (aget 3 (x_idb c')) = Some [t2 0 2] /\
  option_map pairs (aget 4 (x_idb c')) = Some [t2 0 1].
Proof.
  eexists. eexists. split; [vm_compute; reflexivity|]. split; [vm_compute; reflexivity|].
  split; [vm_compute; reflexivity|]. split; vm_compute; reflexivity.
Qed.
Print Assumptions C41_moved_refuted.

(** * C40: running again *)
(** Outside incremental mode a second run of the same program, with nothing added,
    loses the facts of input relations that are outputs. *)
Theorem C40_moved_refuted : exists c c' : ctx unit_prov unit nat,
  execute (xE unit_prov) false 20 (Some (xtc unit_prov))
    (mkCtx (add_dynamic 3 [(None, t2 0 1)] []) false [] [] 0) = Some c /\
  execute (xE unit_prov) false 20 (Some (xtc unit_prov)) c = Some c' /\
  option_map pairs (aget 3 (x_idb c)) = Some [t2 0 1] /\ option_map pairs (aget 3 (x_idb c')) = Some [].
Proof.
  eexists. eexists. split; [vm_compute; reflexivity|]. split; [vm_compute; reflexivity|].
  split; vm_compute; reflexivity.
Qed.
Print Assumptions C40_moved_refuted.
(** Program facts are tagged again in every run and added to the earlier ones: with
    counting tags a second run triples the count of the fact. *)
Theorem C40_retag_refuted : exists c c' : ctx nat_prov nat nat,
  execute (xE nat_prov) true 20 (Some (xtc nat_prov)) (mkCtx [] false [] [] 0) = Some c /\
  execute (xE nat_prov) true 20 (Some (xtc nat_prov)) c = Some c' /\
  aget 1 (x_idb c) = Some [(t2 0 1, 1)] /\ aget 1 (x_idb c') = Some [(t2 0 1, 3)].
Proof.
  eexists. eexists. split; [vm_compute; reflexivity|]. split; [vm_compute; reflexivity|].
  split; vm_compute; reflexivity.
Qed.
Print Assumptions C40_retag_refuted.
(** Outside incremental mode, [execute] a second time panics when an output is
    mutually recursive with a hidden relation, whatever the fuel. *)
Theorem C40_execute_refuted : exists c : ctx unit_prov unit nat,
  execute (xE unit_prov) false 20 (Some (xtc unit_prov)) (mkCtx [] false [] [] 0) = Some c /\
  forall fuel, execute (xE unit_prov) false fuel None c = None.
Proof.
  eexists. split; [vm_compute; reflexivity|]. intros fuel. cbn.
  destruct fuel as [|[|fuel]]; reflexivity.
Qed.
Print Assumptions C40_execute_refuted.
