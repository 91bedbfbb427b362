(** What dataflows yield at run time (Denote.v) and what they stand for (RamSem.v)
    agree on the dataflows that lowering builds.  Used by C56. *)
From Coq Require Import List ZArith Bool Arith Lia.
From Verif Require Import Order Value Prov Dataflow View Denote DataflowFacts Back Eval Ram BackSem Increm RamSem B2RScope PermOrder B2RWf.
Import ListNotations.
Set Implicit Arguments.

Lemma proj_spec : forall E e t u, proj_fn E e t = Some u <-> eval E e t = EOk u.
Proof. intros E e t u. unfold proj_fn. destruct (eval E e t); split; intros H; try discriminate; congruence. Qed.
Lemma filt_spec : forall E e t, filt_fn E e t = true <-> eval E e t = EOk (TVal (VBool true)).
Proof.
  intros E e t. unfold filt_fn. destruct (eval E e t) as [[v|ts]| | ]; split; intros H; try discriminate; try (injection H as ->; reflexivity).
  destruct v; try discriminate. destruct b; [reflexivity|discriminate].
Qed.
Lemma refs_collect : forall d r, In r (prefs d) \/ In r (nrefs d) -> In r (collect d).
Proof.
  induction d; cbn [prefs nrefs collect]; intros q H; rewrite ?in_app_iff in *; cbn in *; try tauto;
    try (specialize (IHd q)); try (specialize (IHd1 q); specialize (IHd2 q)); rewrite ?in_app_iff in *; tauto.
Qed.
Lemma ssl_prefs : forall d, ssl d -> prefs d <> [].
Proof. induction d; cbn; try tauto; discriminate. Qed.

Section DenRden.
  Variables (P : Prov) (L : lenv P) (fp : pred -> rel) (ag : nat -> nat -> rgrp -> tuple -> Prop).
  Notation elem := (elem P).
  Variable col : nat -> option (list elem).
  Variable Ie : nat -> elem -> Prop.
  Variables J X : rels.
  (** What is read at run time. *)
  Definition read (r : nat) (t : tuple) : Prop := exists g, match col r with Some c => In (t, g) c | None => Ie r (t, g) end.
  Lemma ssl_den : forall d, ssl d -> (forall r, In r (prefs d) -> forall t, J r t <-> read r t) ->
    forall t, (exists g, den col true Ie (lower L d) (t, g)) <-> rden (l_env L) fp ag J J d t.
  Proof.
    induction d; cbn [ssl lower den rden prefs]; try tauto; intros S H t.
    - rewrite (H r (or_introl eq_refl)). unfold read. destruct (col r); split; intros (g & K); exists g; tauto.
    - rewrite <- (IHd S H t). cbn [fst]. split.
      + intros (g & K1 & K2). split; eauto. apply filt_spec, K2.
      + intros ((g & K1) & K2). exists g. split; auto. apply filt_spec, K2.
    - cbn [fst snd]. split.
      + intros (g & u & K1 & K2). exists u. split; [apply (IHd S H); eauto|apply proj_spec, K2].
      + intros (u & K1 & K2). apply (IHd S H) in K1. destruct K1 as (g & K1). exists g, u. split; auto. apply proj_spec, K2.
    - rewrite <- (IHd S H t). cbn [fst]. split; [intros (g & K1 & K2); eauto|intros ((g & K1) & K2); eauto].
  Qed.
  Definition no_minus (d : rdf) : Prop := (forall a b, pminus P a b = None) \/ nrefs d = [].
  Lemma no_minus_app : forall d1 d2 d, no_minus d -> nrefs d = nrefs d1 ++ nrefs d2 -> no_minus d1 /\ no_minus d2.
  Proof.
    intros d1 d2 d [H|H] K; [split; left; auto|]. rewrite K in H. apply app_eq_nil in H. destruct H. split; right; auto.
  Qed.
  Lemma den_rden : forall d, frag d -> no_minus d -> (forall r, In r (nrefs d) -> forall t, J r t <-> read r t) ->
    (forall r, In r (prefs d) -> forall t, read r t -> X r t) ->
    forall t g, den col true Ie (lower L d) (t, g) -> rden (l_env L) fp ag J X d t.
  Proof.
    induction d; cbn [frag lower den rden prefs nrefs]; try tauto; intros F NM HN HP t0 g K; cbn [fst snd] in *.
    - destruct K as [_ K]. injection K as -> ->. reflexivity.
    - apply HP; [left; auto|]. exists g. destruct (col r); tauto.
    - destruct K as [(g' & K) _]. eapply IHd; eauto.
    - destruct K as [K1 K2]. split; [eapply IHd; eauto|apply filt_spec, K2].
    - destruct K as (u & K1 & K2). exists u. split; [eapply IHd; eauto|apply proj_spec, K2].
    - destruct K as [K1 K2]. split; [eapply IHd; eauto|exact K2].
    - destruct F as [F1 F2]. destruct (no_minus_app d1 d2 NM eq_refl) as [N1 N2]. destruct K as (a & b & K1 & K2 & _).
      split; [eapply IHd1|eapply IHd2]; eauto; intros; try apply HN; try apply HP; rewrite ?in_app_iff; auto.
    - destruct F as [F1 F2]. destruct (no_minus_app d1 d2 NM eq_refl) as [N1 N2].
      destruct K as (t1 & t2 & a & b & k & x & y & K1 & K2 & K3 & K4 & K5 & K6 & K7). injection K7 as -> ->. exists t1, t2, k, x, y.
      split; [|split; [|auto]]; [eapply IHd1|eapply IHd2]; eauto; intros; try apply HN; try apply HP; rewrite ?in_app_iff; auto.
    - destruct F as [F1 F2]. destruct (no_minus_app d1 d2 NM eq_refl) as [N1 N2].
      destruct K as (t1 & t2 & a & b & K1 & K2 & K7). injection K7 as -> ->. exists t1, t2.
      split; [|split; [|auto]]; [eapply IHd1|eapply IHd2]; eauto; intros; try apply HN; try apply HP; rewrite ?in_app_iff; auto.
    - destruct F as [F1 F2]. destruct NM as [NM|NM]; [|exfalso; apply app_eq_nil in NM; destruct NM as [_ NM]; apply app_eq_nil in NM; exact (ssl_prefs _ F2 (proj1 NM))].
      destruct K as [[K1 K2]|(a & b & _ & _ & K)]; [|rewrite NM in K; discriminate].
      split; [eapply IHd1; eauto; [left; exact NM|intros; apply HN; rewrite ?in_app_iff; auto]|].
      intros R. apply ssl_den in R; auto; [|intros; apply HN; rewrite !in_app_iff; auto]. destruct R as (g' & R). exact (K2 g' R).
    - destruct F as [F1 F2]. destruct NM as [NM|NM]; [|exfalso; apply app_eq_nil in NM; destruct NM as [_ NM]; apply app_eq_nil in NM; exact (ssl_prefs _ F2 (proj1 NM))].
      destruct K as [[K1 K2]|(k & a & b & _ & _ & _ & K)]; [|rewrite NM in K; discriminate].
      split; [eapply IHd1; eauto; [left; exact NM|intros; apply HN; rewrite ?in_app_iff; auto]|].
      intros k Ek R. apply ssl_den in R; auto; [|intros; apply HN; rewrite !in_app_iff; auto]. destruct R as (g' & R). exact (K2 k g' Ek R).
  Qed.
  Lemma rden_den : forall d, frag d -> (forall r, In r (nrefs d) -> forall t, J r t <-> read r t) ->
    (forall r, In r (prefs d) -> forall t, X r t -> read r t) ->
    forall t, rden (l_env L) fp ag J X d t -> exists g, den col true Ie (lower L d) (t, g).
  Proof.
    induction d; cbn [frag lower den rden prefs nrefs]; try tauto; intros F HN HP t0 K; cbn [fst snd] in *.
    - subst. eexists. split; auto.
    - apply HP in K; [|left; auto]. destruct K as (g & K). exists g. destruct (col r); tauto.
    - destruct (IHd F HN HP _ K) as (g & K3). exists (pone P). split; eauto.
    - destruct K as [K1 K2]. destruct (IHd F HN HP _ K1) as (g & K3). exists g. split; auto. apply filt_spec, K2.
    - destruct K as (u & K1 & K2). destruct (IHd F HN HP _ K1) as (g & K3). exists g, u. split; auto. apply proj_spec, K2.
    - destruct K as [K1 K2]. destruct (IHd F HN HP _ K1) as (g & K3). exists g. split; auto.
    - destruct F as [F1 F2]. destruct K as [K1 K2]. apply IHd1 in K1; auto; [|intros; apply HN; rewrite ?in_app_iff; auto|intros; apply HP; rewrite ?in_app_iff; auto].
      apply IHd2 in K2; auto; [|intros; apply HN; rewrite ?in_app_iff; auto|intros; apply HP; rewrite ?in_app_iff; auto].
      destruct K1 as (a & K1), K2 as (b & K2). eexists. exists a, b. eauto.
    - destruct F as [F1 F2]. destruct K as (t1 & t2 & k & x & y & K1 & K2 & K3 & K4 & K5 & K6 & ->).
      apply IHd1 in K1; auto; [|intros; apply HN; rewrite ?in_app_iff; auto|intros; apply HP; rewrite ?in_app_iff; auto].
      apply IHd2 in K2; auto; [|intros; apply HN; rewrite ?in_app_iff; auto|intros; apply HP; rewrite ?in_app_iff; auto].
      destruct K1 as (a & K1), K2 as (b & K2). eexists. exists t1, t2, a, b, k, x, y. repeat (split; [eassumption|]). reflexivity.
    - destruct F as [F1 F2]. destruct K as (t1 & t2 & K1 & K2 & ->).
      apply IHd1 in K1; auto; [|intros; apply HN; rewrite ?in_app_iff; auto|intros; apply HP; rewrite ?in_app_iff; auto].
      apply IHd2 in K2; auto; [|intros; apply HN; rewrite ?in_app_iff; auto|intros; apply HP; rewrite ?in_app_iff; auto].
      destruct K1 as (a & K1), K2 as (b & K2). eexists. exists t1, t2, a, b. repeat (split; [eassumption|]). reflexivity.
    - destruct F as [F1 F2]. destruct K as [K1 K2]. apply IHd1 in K1; auto; [|intros; apply HN; rewrite ?in_app_iff; auto].
      destruct K1 as (g & K1). exists g. left. split; auto. intros g' R. apply K2. apply ssl_den; auto; [intros; apply HN; rewrite !in_app_iff; auto|eauto].
    - destruct F as [F1 F2]. destruct K as [K1 K2]. apply IHd1 in K1; auto; [|intros; apply HN; rewrite ?in_app_iff; auto].
      destruct K1 as (g & K1). exists g. left. split; auto. intros k g' Ek R. apply (K2 k Ek). apply ssl_den; auto; [intros; apply HN; rewrite !in_app_iff; auto|eauto].
  Qed.
  (** Tags never stand in the way. *)
  Lemma frag_tag_wf : forall (V : view P) d, ow_ok V -> frag d -> no_minus d -> (forall r, In r (nrefs d) -> col r <> None) -> tag_wf col V (lower L d).
  Proof.
    clear fp ag Ie J X. intros V d OW. induction d; cbn [frag lower tag_wf nrefs]; try tauto; intros F NM HN; auto.
    - destruct F as [F1 F2]. destruct (no_minus_app d1 d2 NM eq_refl) as [N1 N2]. split; [apply IHd1|apply IHd2]; auto; intros; apply HN; rewrite in_app_iff; auto.
    - destruct F as [F1 F2]. destruct (no_minus_app d1 d2 NM eq_refl) as [N1 N2]. split; [apply IHd1|apply IHd2]; auto; intros; apply HN; rewrite in_app_iff; auto.
    - destruct F as [F1 F2]. destruct (no_minus_app d1 d2 NM eq_refl) as [N1 N2]. split; [apply IHd1|apply IHd2]; auto; intros; apply HN; rewrite in_app_iff; auto.
    - destruct F as [F1 F2]. destruct NM as [NM|NM]; [|exfalso; apply app_eq_nil in NM; destruct NM as [_ NM]; apply app_eq_nil in NM; exact (ssl_prefs _ F2 (proj1 NM))].
      split; [left; auto|]. split; [apply (ssl_static (fun _ _ => True)); auto; intros; apply HN; rewrite !in_app_iff; auto|].
      apply IHd1; auto; [left; exact NM|intros; apply HN; rewrite in_app_iff; auto].
    - destruct F as [F1 F2]. destruct NM as [NM|NM]; [|exfalso; apply app_eq_nil in NM; destruct NM as [_ NM]; apply app_eq_nil in NM; exact (ssl_prefs _ F2 (proj1 NM))].
      split; [left; auto|]. split; [apply (ssl_static (fun _ _ => True)); auto; intros; apply HN; rewrite !in_app_iff; auto|].
      apply IHd1; auto; [left; exact NM|intros; apply HN; rewrite in_app_iff; auto].
  Qed.
  (** The tuples yielded have the lengths of the definitions. *)
  Variable Sh : nat -> tuple -> Prop.
  Lemma tuple_elen : forall e t u, eval (l_env L) e t = EOk u -> elen e u.
  Proof.
    intros e t u H. destruct e as [l| | | | | | | ]; cbn [elen]; auto. cbn [eval] in H.
    destruct (emap (fun x => eval (l_env L) x t) l) as [us| |] eqn:M; [|discriminate|discriminate]. injection H as <-. exists us. split; auto.
    revert us M. induction l as [|e l IH]; intros us M; cbn [emap] in M; [injection M as <-; reflexivity|].
    destruct (eval (l_env L) e t); [|discriminate|discriminate]. cbn [ebind] in M. destruct (emap (fun x => eval (l_env L) x t) l); [|discriminate|discriminate].
    injection M as <-. cbn. f_equal. auto.
  Qed.
  Hypothesis SI : forall r e, Ie r e -> Sh r (fst e).
  Hypothesis SC : forall r c e, col r = Some c -> In e c -> Sh r (fst e).
  Lemma ylen_den : forall n d, ylen Sh n d -> forall e, den col true Ie (lower L d) e -> tlen n (fst e).
  Proof.
    clear fp ag J X. intros n. induction d; cbn [ylen lower den]; try tauto; intros Y x K.
    - destruct K as [_ ->]. exact Y.
    - apply Y. destruct (col r) as [c|] eqn:Q; [|apply SI; exact K]. eapply SC; [exact Q|apply K].
    - destruct K as [(g & K) _]. exact (IHd Y _ K).
    - apply IHd; auto. apply K.
    - destruct K as (u & _ & K). apply proj_spec in K. apply tuple_elen in K. destruct e; try tauto. cbn in K. rewrite Y in K. exact K.
    - apply IHd; auto. apply K.
    - destruct K as (a & b & K & _). exact (IHd1 Y _ K).
    - destruct K as [[K _]|(a & b & K & _)]; [exact (IHd1 Y _ K)|exact (IHd1 Y _ K)].
    - destruct K as [[K _]|(k & a & b & _ & K & _)]; [exact (IHd1 Y _ K)|exact (IHd1 Y _ K)].
  Qed.
  Lemma project_den : forall d e x, den col true Ie (lower L (RProject d e)) x -> elen e (fst x).
  Proof. intros d e x (u & _ & K). apply proj_spec in K. eapply tuple_elen, K. Qed.
End DenRden.
