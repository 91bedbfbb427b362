(** C88: loading a source adds it and its imports once each, or nothing. *)
From Coq Require Import List Bool Arith Lia Permutation.
From Verif Require Import Loading.
Import ListNotations.
Set Implicit Arguments.

Section Spec.
  Variable item : Type.
  Variable fs : nat -> option (option (src item)).
  (** files a source imports, directly or not *)
  Inductive reach : src item -> nat -> Prop :=
  | reach_here : forall s f, In f (sc_imports s) -> reach s f
  | reach_there : forall s g s' f, In g (sc_imports s) -> fs g = Some (Some s') -> reach s' f -> reach s f.

  (** the imports form a tree of height below [n]: all files can be read, and none is reached twice *)
  Fixpoint trees (tree : src item -> Prop) (fl : list nat) : Prop :=
    match fl with
    | [] => True
    | f :: r =>
      (exists s, fs f = Some (Some s) /\ tree s /\ ~ reach s f /\
         forall g, In g r -> g <> f /\ ~ reach s g /\
           forall s', fs g = Some (Some s') -> ~ reach s' f /\ forall k, reach s k -> ~ reach s' k) /\
      trees tree r
    end.
  Fixpoint tree (n : nat) (s : src item) : Prop :=
    match n with 0 => False | S n => trees (tree n) (sc_imports s) end.
End Spec.

Section Props.
  Variable A item : Type.
  Variable a0 : A.
  Variable pre : A -> list item -> A * bool.
  Variable transform : A -> list item -> A * list item.
  Variable post : A -> list item -> A * bool.
  Variable fs : nat -> option (option (src item)).
  Notation heap := (heap A).
  Notation fctx := (fctx item).
  Notation src := (src item).
  Notation hread := (hread a0).
  Notation hcount := (hcount a0).
  Notation load := (load a0 pre transform post fs).
  Notation process_imports := (process_imports fs).
  Notation finish := (finish a0 pre transform post).

  (** what analysing and transforming one source does to the analysis and the items *)
  Definition step (x : A * list item) (body : list item) : A * list item :=
    let '(a2, body') := transform (fst (pre (fst x) body)) body in (fst (post a2 body'), snd x ++ body').
  Definition file_body (f : nat) : list item :=
    match fs f with Some (Some s) => sc_body s | _ => [] end.

  (** ** Memory: counts are the numbers of owners *)
  Definition wf (h : heap) (os : list nat) : Prop :=
    (forall q, In q os -> q < length h) /\ (forall q, q < length h -> hcount h q = count_occ Nat.eq_dec os q).

  Lemma hmap_length : forall (h : heap) q f, length (hmap h q f) = length h.
  Proof. induction h; destruct q; simpl; auto. Qed.
  Lemma hmap_same : forall (h : heap) q f, q < length h -> nth q (hmap h q f) (a0, 0) = f (nth q h (a0, 0)).
  Proof. induction h; destruct q; simpl; intros; try lia; auto. apply IHh; lia. Qed.
  Lemma hmap_other : forall (h : heap) q r f, q <> r -> nth r (hmap h q f) (a0, 0) = nth r h (a0, 0).
  Proof. induction h; destruct q, r; simpl; intros; auto; try lia. Qed.

  Lemma wf_perm : forall h os os', Permutation os os' -> wf h os -> wf h os'.
  Proof.
    intros h os os' P [W1 W2]. split.
    - intros q I. apply W1. eapply Permutation_in; [apply Permutation_sym|]; eauto.
    - intros q I. rewrite W2 by auto. apply (Permutation_count_occ Nat.eq_dec). auto.
  Qed.
  Lemma wf_incr : forall h os q, wf h os -> q < length h -> wf (hincr h q) (q :: os) /\ (forall r, hread (hincr h q) r = hread h r).
  Proof.
    intros h os q [W1 W2] L. unfold hincr. split; [split|].
    - intros r [<-|I]; rewrite hmap_length; auto.
    - intros r. rewrite hmap_length. intros Lr. unfold hcount. simpl. destruct (Nat.eq_dec q r) as [<-|N].
      + rewrite hmap_same by auto. simpl. f_equal. apply W2; auto.
      + rewrite hmap_other by auto. apply W2; auto.
    - intros r. unfold hread. destruct (Nat.eq_dec q r) as [<-|N]; [rewrite hmap_same|rewrite hmap_other]; auto.
  Qed.
  Lemma wf_decr : forall h os q, wf h (q :: os) -> wf (hdecr h q) os /\ (forall r, hread (hdecr h q) r = hread h r).
  Proof.
    intros h os q [W1 W2]. assert (L : q < length h) by (apply W1; left; auto). unfold hdecr. split; [split|].
    - intros r I; rewrite hmap_length. apply W1; right; auto.
    - intros r. rewrite hmap_length. intros Lr. specialize (W2 r Lr). unfold hcount in *. simpl in W2. destruct (Nat.eq_dec q r) as [<-|N].
      + rewrite hmap_same by auto. simpl. rewrite W2. auto.
      + rewrite hmap_other by auto. auto.
    - intros r. unfold hread. destruct (Nat.eq_dec q r) as [<-|N]; [rewrite hmap_same|rewrite hmap_other]; auto.
  Qed.
  Lemma wf_push : forall h os a, wf h os -> wf (h ++ [(a, 1)]) (length h :: os) /\ (forall r, r < length h -> hread (h ++ [(a, 1)]) r = hread h r) /\
    hread (h ++ [(a, 1)]) (length h) = a.
  Proof.
    intros h os a [W1 W2]. split; [split|split].
    - intros r I. rewrite app_length. simpl. destruct I as [<-|I]; [lia|]. apply W1 in I. lia.
    - intros r. rewrite app_length. simpl. intros L. unfold hcount. destruct (Nat.eq_dec (length h) r) as [<-|N].
      + rewrite app_nth2, Nat.sub_diag by lia. simpl. f_equal. symmetry. apply count_occ_not_In. intros I. apply W1 in I. lia.
      + rewrite app_nth1 by lia. apply W2. lia.
    - intros r L. unfold hread. rewrite app_nth1; auto.
    - unfold hread. rewrite app_nth2, Nat.sub_diag by lia. auto.
  Qed.
  Lemma wf_modify : forall h os q a h' q', wf h (q :: os) -> hmodify h q a = (h', q') ->
    wf h' (q' :: os) /\ ~ In q' os /\ hread h' q' = a /\ (forall r, In r os -> hread h' r = hread h r).
  Proof.
    intros h os q a h' q' W E. inversion E; subst. clear E. destruct (wf_push a W) as (W1 & R1 & R2).
    assert (P : Permutation (length h :: q :: os) (q :: length h :: os)) by constructor.
    destruct (wf_decr (wf_perm P W1)) as (W2 & R3). split; [auto|]. destruct W as [B _]. split; [|split].
    - intros I. assert (length h < length h) by (apply B; right; auto). lia.
    - rewrite R3. auto.
    - intros r I. rewrite R3. apply R1. apply B. right; auto.
  Qed.
  Lemma wf_write : forall h os q a, wf h (q :: os) -> ~ In q os ->
    wf (hwrite h q a) (q :: os) /\ hread (hwrite h q a) q = a /\ (forall r, In r os -> hread (hwrite h q a) r = hread h r).
  Proof.
    intros h os q a [W1 W2] N. assert (L : q < length h) by (apply W1; left; auto). unfold hwrite. split; [split|split].
    - intros r I. rewrite hmap_length. auto.
    - intros r. rewrite hmap_length. intros Lr. rewrite <- W2 by auto. unfold hcount. destruct (Nat.eq_dec q r) as [<-|M].
      + rewrite hmap_same by auto. auto.
      + rewrite hmap_other by auto. auto.
    - unfold hread. rewrite hmap_same by auto. auto.
    - intros r I. unfold hread. rewrite hmap_other; auto. intros ->. auto.
  Qed.

  (** ** One source *)
  Lemma finish_spec : forall h c d p body o h' c' os, wf h (fc_ptr d :: fc_ptr c :: os) -> finish h c d p body = (o, h', c') ->
    wf h' (fc_ptr c' :: os) /\ (forall r, In r os -> hread h' r = hread h r) /\
    ((o = Failed EAnalysis /\ c' = c /\ hread h' (fc_ptr c) = hread h (fc_ptr c)) \/
     (o = Done /\ fc_imported c' = fc_imported d /\ fc_sources c' = fc_sources d ++ [p] /\
      (hread h' (fc_ptr c'), fc_items c') = step (hread h (fc_ptr d), fc_items d) body)).
  Proof.
    intros h c d p body o h' c' os W H. unfold finish in H.
    destruct (pre (hread h (fc_ptr d)) body) as [a1 e1] eqn:E1.
    destruct (hmodify h (fc_ptr d) a1) as [h1 q1] eqn:M1.
    destruct (wf_modify W M1) as (W1 & N1 & R1 & K1).
    destruct e1.
    - inversion H; subst. destruct (wf_decr W1) as (W2 & R2). split; [auto|split; [|left; split; [auto|split; [auto|]]]].
      + intros r I. rewrite R2. apply K1. right; auto.
      + rewrite R2. apply K1. left; auto.
    - assert (C1 : hcount h1 q1 = 1).
      { destruct W1 as [B1 B2]. rewrite B2 by (apply B1; left; auto). rewrite count_occ_cons_eq by auto. f_equal. apply count_occ_not_In. auto. }
      rewrite C1, R1, Nat.eqb_refl in H. destruct (transform a1 body) as [a2 body'] eqn:T.
      destruct (wf_write a2 W1 N1) as (W2 & R2 & K2). rewrite R2 in H.
      destruct (post a2 body') as [a3 e3] eqn:E3.
      destruct (hmodify (hwrite h1 q1 a2) q1 a3) as [h3 q3] eqn:M3.
      destruct (wf_modify W2 M3) as (W3 & N3 & R3 & K3).
      destruct e3; inversion H; subst.
      + destruct (wf_decr W3) as (W4 & R4). split; [auto|split; [|left; split; [auto|split; [auto|]]]].
        * intros r I. rewrite R4, K3, K2, K1; auto; right; auto.
        * rewrite R4, K3, K2, K1; auto; left; auto.
      + assert (P : Permutation (q3 :: fc_ptr c :: os) (fc_ptr c :: q3 :: os)) by constructor.
        destruct (wf_decr (wf_perm P W3)) as (W4 & R4). cbn [fc_ptr fc_imported fc_sources fc_items].
        split; [auto|split].
        * intros r I. rewrite R4, K3, K2, K1; auto; right; auto.
        * right. split; [auto|split; [auto|split; [auto|]]]. unfold step. cbn [fst snd]. rewrite E1. cbn [fst]. rewrite T, E3, R4. auto.
  Qed.

  (** ** What a load does, for all outcomes *)
  Definition failed (o : outcome) : Prop := match o with Failed _ => True | _ => False end.
  Definition steps (x : A * list item) (l : list nat) : A * list item := fold_left step (map file_body l) x.
  Definition opt_list (p : option nat) : list nat := match p with Some f => [f] | None => [] end.

  (** the effect of importing the files [fl]: they are loaded in the order [l] *)
  Definition imports_ok (imported : list nat) (fl l : list nat) : Prop :=
    NoDup l /\ (forall f, In f l -> ~ In f imported /\ exists s, fs f = Some (Some s)) /\
    (forall f, In f fl -> In f l) /\
    (forall f, In f l -> In f fl \/ exists g s, In g fl /\ fs g = Some (Some s) /\ reach fs s f) /\
    (forall a g b s, l = a ++ g :: b -> fs g = Some (Some s) -> forall f, In f (sc_imports s) -> In f a).

  Definition load_post (h : heap) (c : fctx) (p : option nat) (content : option src) (os : list nat) (o : outcome) (h' : heap) (c' : fctx) : Prop :=
    wf h' (fc_ptr c' :: os) /\ (forall r, In r os -> hread h' r = hread h r) /\
    (failed o -> c' = c /\ hread h' (fc_ptr c) = hread h (fc_ptr c)) /\
    (o = Done -> exists s l, content = Some s /\ imports_ok (opt_list p ++ fc_imported c) (sc_imports s) l /\
      (forall f, In f (fc_imported c') <-> In f l \/ In f (opt_list p ++ fc_imported c)) /\
      fc_sources c' = fc_sources c ++ map Some l ++ [p] /\
      (hread h' (fc_ptr c'), fc_items c') = step (steps (hread h (fc_ptr c), fc_items c) l) (sc_body s)).

  Lemma is_imported_iff : forall (c : fctx) f, is_imported c f = true <-> In f (fc_imported c).
  Proof.
    intros. unfold is_imported. rewrite existsb_exists. split.
    - intros (g & I & E). apply Nat.eqb_eq in E. subst. auto.
    - intros I. exists f. rewrite Nat.eqb_refl. auto.
  Qed.

  Lemma split_mid : forall (a l1 : list nat) g b l2, a ++ g :: b = l1 ++ l2 ->
    (exists b', l1 = a ++ g :: b') \/ (exists a', a = l1 ++ a' /\ l2 = a' ++ g :: b).
  Proof.
    induction a as [|x a IH]; intros [|y l1] g b l2 H; simpl in H.
    - right. exists []. auto.
    - left. inversion H; subst. exists l1. auto.
    - right. exists (x :: a). auto.
    - inversion H; subst. destruct (IH _ _ _ _ H2) as [(b' & ->)|(a' & -> & ->)].
      + left. exists b'. auto.
      + right. exists a'. auto.
  Qed.

  Lemma NoDup_app_intro : forall (a b : list nat), NoDup a -> NoDup b -> (forall x, In x a -> ~ In x b) -> NoDup (a ++ b).
  Proof.
    induction a as [|x a IH]; intros b Na Nb D; auto. inversion Na; subst. simpl. constructor.
    - rewrite in_app_iff. intros [I|I]; [auto|]. apply (D x); auto. left; auto.
    - apply IH; auto. intros y I. apply D. right; auto.
  Qed.

  Lemma imports_spec : forall (rec : heap -> fctx -> option nat -> option src -> outcome * heap * fctx),
    (forall h c p content o h' c' os, wf h (fc_ptr c :: os) -> rec h c p content = (o, h', c') -> o <> Panicked /\ (o <> NoFuel -> load_post h c p content os o h' c')) ->
    forall fl h d o h' d' os, wf h (fc_ptr d :: os) -> process_imports rec h d fl = (o, h', d') ->
    o <> Panicked /\ (o <> NoFuel -> wf h' (fc_ptr d' :: os) /\ (forall r, In r os -> hread h' r = hread h r) /\
      (o = Done -> exists l, imports_ok (fc_imported d) fl l /\
        (forall f, In f (fc_imported d') <-> In f l \/ In f (fc_imported d)) /\
        fc_sources d' = fc_sources d ++ map Some l /\
        (hread h' (fc_ptr d'), fc_items d') = steps (hread h (fc_ptr d), fc_items d) l)).
  Proof.
    intros rec Hrec. induction fl as [|f fl IH]; intros h d o h' d' os W H; simpl in H.
    - inversion H; subst. split; [discriminate|]. intros _. split; [auto|split; [auto|]]. intros _. exists [].
      split; [|split; [|split]]; auto.
      + split; [constructor|split; [intros ? []|split; [intros ? []|split; [intros ? []|]]]]. intros a g b s E. destruct a; discriminate.
      + intros f. simpl. tauto.
      + simpl. rewrite app_nil_r. auto.
    - destruct (is_imported d f) eqn:Ii; [inversion H; subst; split; [discriminate|]; intros _; split; [auto|split; [auto|]]; discriminate|].
      assert (Ni : ~ In f (fc_imported d)) by (rewrite <- is_imported_iff; congruence).
      destruct (fs f) as [content|] eqn:Ff; [|inversion H; subst; split; [discriminate|]; intros _; split; [auto|split; [auto|]]; discriminate].
      destruct (rec h d (Some f) content) as [[o1 h1] d1] eqn:R.
      destruct (Hrec _ _ _ _ _ _ _ _ W R) as (NP & L).
      destruct o1 as [|e| |]; [| | tauto | inversion H; subst; split; [discriminate|]; congruence].
      2:{ inversion H; subst. split; [auto|]. intros _. destruct L as (W1 & K1 & _); [discriminate|]. split; [auto|split; [auto|]]. discriminate. }
      destruct L as (W1 & K1 & _ & D1); [discriminate|]. destruct (D1 eq_refl) as (s & l1 & -> & I1 & M1 & S1 & V1). clear D1.
      destruct (IH _ _ _ _ _ _ W1 H) as (NP2 & L2). split; [auto|]. intros NF. destruct (L2 NF) as (W2 & K2 & D2). clear L2.
      split; [auto|split; [intros r I; rewrite K2, K1; auto|]]. intros E. destruct (D2 E) as (l2 & I2 & M2 & S2 & V2). clear D2.
      simpl in I1, M1. destruct I1 as (N1 & F1 & C1 & B1 & T1). destruct I2 as (N2 & F2 & C2 & B2 & T2).
      exists (l1 ++ f :: l2). split; [|split; [|split]].
      + split; [|split; [|split; [|split]]].
        * apply NoDup_app_intro; auto.
          -- constructor; auto. intros I. apply F2 in I as [I _]. apply I, M1. right; left; auto.
          -- intros g I [<-|J]; [apply F1 in I as [I _]; apply I; left; auto|]. apply F2 in J as [J _]. apply J, M1. auto.
        * intros g I. apply in_app_iff in I as [I|[<-|I]].
          -- destruct (F1 _ I) as [X Y]. split; auto. intros J. apply X. right; auto.
          -- eauto.
          -- destruct (F2 _ I) as [X Y]. split; auto. intros J. apply X. apply M1. right. right; auto.
        * intros g [<-|I]; apply in_app_iff; [right; left; auto|right; right; auto].
        * intros g I. apply in_app_iff in I as [I|[<-|I]].
          -- right. exists f, s. split; [left; auto|split; [auto|]]. destruct (B1 _ I) as [J|(k & s' & J & Fk & Rk)]; [apply reach_here; auto|eapply reach_there; eauto].
          -- left; left; auto.
          -- destruct (B2 _ I) as [J|(k & s' & J & Fk & Rk)]; [left; right; auto|right; exists k, s'; split; [right; auto|auto]].
        * intros a g b s' E' Fg k Ik. symmetry in E'. apply split_mid in E' as [(b' & ->)|(a' & -> & E2)].
          -- eapply T1; eauto.
          -- destruct a' as [|x a']; simpl in E2; inversion E2; subst.
             ++ rewrite app_nil_r. rewrite Fg in Ff. inversion Ff; subst. auto.
             ++ apply in_app_iff. right. right. eapply T2; eauto.
      + intros g. rewrite M2, M1, in_app_iff. simpl. tauto.
      + rewrite S2, S1. rewrite map_app. simpl. rewrite <- !app_assoc. auto.
      + rewrite V2, V1. unfold steps. rewrite map_app, fold_left_app. simpl. assert (Eb : file_body f = sc_body s) by (unfold file_body; rewrite Ff; auto). rewrite Eb. auto.
  Qed.

  Lemma load_spec : forall fuel h c p content o h' c' os, wf h (fc_ptr c :: os) -> load fuel h c p content = (o, h', c') ->
    o <> Panicked /\ (o <> NoFuel -> load_post h c p content os o h' c').
  Proof.
    induction fuel as [|fuel IH]; intros h c p content o h' c' os W H; cbn [Loading.load] in H.
    - inversion H; subst. split; [discriminate|congruence].
    - assert (Lc : fc_ptr c < length h) by (apply W; left; auto).
      destruct (wf_incr W Lc) as (W1 & R1).
      destruct content as [s|].
      2:{ inversion H; subst. split; [discriminate|]. intros _. destruct (wf_decr W1) as (W2 & R2).
          unfold load_post. split; [auto|split; [intros; rewrite R2, R1; auto|split; [intros _; rewrite R2, R1; auto|discriminate]]]. }
      assert (Ep : fc_ptr (add_import c p) = fc_ptr c /\ fc_items (add_import c p) = fc_items c /\ fc_sources (add_import c p) = fc_sources c /\
                   fc_imported (add_import c p) = opt_list p ++ fc_imported c) by (destruct p; simpl; auto).
      destruct Ep as (E1 & E2 & E3 & E4).
      destruct (process_imports (load fuel) (hincr h (fc_ptr c)) (add_import c p) (sc_imports s)) as [[o1 h2] d] eqn:P.
      assert (W1' : wf (hincr h (fc_ptr c)) (fc_ptr (add_import c p) :: fc_ptr c :: os)) by (rewrite E1; auto).
      destruct (@imports_spec _ IH _ _ _ _ _ _ _ W1' P) as (NP & L). rewrite E1, E2, E3, E4 in L.
      destruct o1 as [|e| |]; [| |tauto|inversion H; subst; split; [discriminate|congruence]].
      + destruct L as (W2 & K2 & D); [discriminate|]. destruct (D eq_refl) as (l & I & M & S & V). clear D.
        destruct (@finish_spec _ _ _ _ _ _ _ _ _ W2 H) as (W3 & K3 & [(-> & -> & Rc)|(-> & Im & So & Vi)]).
        * split; [discriminate|]. intros _. split; [auto|split; [|split; [|discriminate]]].
          -- intros r J. rewrite K3, K2, R1; auto. right; auto.
          -- intros _. split; auto. rewrite Rc, K2, R1; auto. left; auto.
        * split; [discriminate|]. intros _. split; [auto|split; [|split; [intros []|]]].
          -- intros r J. rewrite K3, K2, R1; auto. right; auto.
          -- intros _. exists s, l. split; [auto|split; [auto|split; [|split]]].
             ++ rewrite Im. auto.
             ++ rewrite So, S, <- app_assoc. auto.
             ++ rewrite Vi, V, R1. auto.
      + destruct L as (W2 & K2 & _); [discriminate|]. inversion H; subst. split; [discriminate|]. intros _.
        destruct (wf_decr W2) as (W3 & R3). split; [auto|split; [|split; [|discriminate]]].
        * intros r J. rewrite R3, K2, R1; auto. right; auto.
        * intros _. split; auto. rewrite R3, K2, R1; auto. left; auto.
  Qed.

  (** A load never panics; if it fails the context, its analysis, and all other contexts are as
      before; if it succeeds the other contexts are as before. *)
  Theorem C88_transaction : forall fuel h c p content o h' c' os, wf h (fc_ptr c :: os) -> load fuel h c p content = (o, h', c') ->
    o <> Panicked /\
    (o <> NoFuel ->
     wf h' (fc_ptr c' :: os) /\ (forall q, In q os -> hread h' q = hread h q) /\
     (forall e, o = Failed e -> c' = c /\ hread h' (fc_ptr c) = hread h (fc_ptr c))).
  Proof.
    intros fuel h c p content o h' c' os W H. destruct (@load_spec fuel _ _ p content _ _ _ _ W H) as (NP & L). split; [auto|].
    intros NF. destruct (L NF) as (A1 & A2 & A3 & _). split; [auto|split; [auto|]]. intros e ->. apply A3. simpl; auto.
  Qed.

  Lemma imports_reach : forall imported s l, imports_ok imported (sc_imports s) l -> forall f, In f l <-> reach fs s f.
  Proof.
    intros imported s l (N & F & C & B & T) f. split.
    - intros I. destruct (B _ I) as [J|(g & s' & J & E & R)]; [apply reach_here; auto|eapply reach_there; eauto].
    - intros R.
      assert (G : forall s f, reach fs s f -> (forall g, In g (sc_imports s) -> In g l) -> In f l).
      { clear - T. induction 1 as [s f I|s g s' f I E R IH]; intros H; auto.
        apply IH. intros k K. specialize (H _ I). apply in_split in H as (a & b & ->).
        apply in_app_iff. left. eapply T; eauto. }
      eapply G; eauto.
  Qed.

  (** A successful load adds the files reached by imports, each once, each after the files it
      imports, none that was imported before, and then the source; the analysis and the items are
      those of analysing and transforming these sources one after the other. *)
  Theorem C88_loaded : forall fuel h c p content h' c' os, wf h (fc_ptr c :: os) -> load fuel h c p content = (Done, h', c') ->
    exists s l, content = Some s /\
      fc_sources c' = fc_sources c ++ map Some l ++ [p] /\
      NoDup l /\ (forall f, In f l <-> reach fs s f) /\
      (forall f, In f l -> ~ In f (fc_imported c) /\ p <> Some f /\ exists s', fs f = Some (Some s')) /\
      (forall a g b s', l = a ++ g :: b -> fs g = Some (Some s') -> forall f, reach fs s' f -> In f a) /\
      (forall f, In f (fc_imported c') <-> reach fs s f \/ p = Some f \/ In f (fc_imported c)) /\
      (hread h' (fc_ptr c'), fc_items c') = step (fold_left step (map file_body l) (hread h (fc_ptr c), fc_items c)) (sc_body s).
  Proof.
    intros fuel h c p content h' c' os W H. destruct (@load_spec fuel _ _ p content _ _ _ _ W H) as (_ & L).
    destruct L as (_ & _ & _ & D); [discriminate|]. destruct (D eq_refl) as (s & l & -> & I & M & S & V). clear D.
    pose proof (@imports_reach _ _ _ I) as R. destruct I as (N & F & C & B & T).
    exists s, l. split; [auto|split; [auto|split; [auto|split; [auto|split; [|split; [|split; [|auto]]]]]]].
    - intros f J. destruct (F _ J) as [X Y]. rewrite in_app_iff in X. split; [tauto|split; [|auto]]. intros ->. apply X. left. simpl; auto.
    - assert (Q : forall s0 f, reach fs s0 f -> forall a g b, l = a ++ g :: b -> fs g = Some (Some s0) -> In f a).
      { intros s0 f Rf. induction Rf as [s0 f I|s0 k s1 f I E Rf IH]; intros a g b El Eg.
        - eapply T; eauto.
        - assert (J : In k a) by (eapply T; eauto). apply in_split in J as (a1 & a2 & ->).
          apply in_app_iff. left. eapply (IH a1 k (a2 ++ g :: b)); auto. rewrite El, <- app_assoc. auto. }
      intros a g b s' El Eg f Rf. eapply Q; eauto.
    - intros f. rewrite M, R, in_app_iff.
      assert (X : In f (opt_list p) <-> p = Some f).
      { destruct p; simpl; split; [intros [->|[]]; auto|intros E; inversion E; auto|intros []|discriminate]. }
      tauto.
  Qed.

  (** Cyclic imports are never loaded. *)
  Theorem C88_cycle : forall fuel h c p s h' c' os o, wf h (fc_ptr c :: os) -> load fuel h c p (Some s) = (o, h', c') ->
    (exists f, p = Some f /\ reach fs s f) \/ (exists g s', reach fs s g /\ fs g = Some (Some s') /\ reach fs s' g) -> o <> Done.
  Proof.
    intros fuel h c p s h' c' os o W H X ->. destruct (@C88_loaded _ _ _ _ _ _ _ _ W H) as (s0 & l & E & _ & N & R & F & T & _). inversion E; subst s0.
    destruct X as [(f & -> & Rf)|(g & s' & Rg & Eg & Rgg)].
    - apply R in Rf. apply F in Rf. tauto.
    - apply R in Rg. apply in_split in Rg as (a & b & El). pose proof (T _ _ _ _ El Eg _ Rgg) as J. subst l.
      apply NoDup_remove_2 in N. apply N. apply in_app_iff. auto.
  Qed.

  (** ** Which sources load *)
  Definition fresh (c : fctx) (p : option nat) (s : src) : Prop := forall f, reach fs s f -> ~ In f (fc_imported c) /\ p <> Some f.

  Lemma add_import_imported : forall (c : fctx) p, fc_imported (add_import c p) = opt_list p ++ fc_imported c /\ fc_ptr (add_import c p) = fc_ptr c.
  Proof. destruct p; simpl; auto. Qed.

  Lemma imports_tree : forall fuel,
    (forall h c p s h' c' os, wf h (fc_ptr c :: os) -> load fuel h c p (Some s) = (Done, h', c') -> tree fs fuel s) ->
    forall fl h d h' d' os, wf h (fc_ptr d :: os) -> process_imports (load fuel) h d fl = (Done, h', d') ->
    trees fs (tree fs fuel) fl /\ forall f s k, In f fl -> fs f = Some (Some s) -> k = f \/ reach fs s k -> ~ In k (fc_imported d).
  Proof.
    intros fuel IHn. induction fl as [|f fl IH]; intros h d h' d' os W H; [split; [simpl; auto|intros ? ? ? []]|].
    simpl in H. destruct (is_imported d f) eqn:Ii; [discriminate|].
    assert (Ni : ~ In f (fc_imported d)) by (rewrite <- is_imported_iff; congruence).
    destruct (fs f) as [content|] eqn:Ff; [|discriminate].
    destruct (load fuel h d (Some f) content) as [[o1 h1] d1] eqn:R.
    destruct o1; try discriminate. destruct (@C88_loaded _ _ _ _ _ _ _ _ W R) as (s & l & -> & _ & _ & Rl & Fl & _ & Im & _).
    assert (W1 : wf h1 (fc_ptr d1 :: os)) by (destruct (@load_spec _ _ _ _ _ _ _ _ _ W R) as (_ & L); apply L; discriminate).
    destruct (IH _ _ _ _ _ W1 H) as (T & Q).
    assert (Fr : forall k, reach fs s k -> ~ In k (fc_imported d) /\ Some f <> Some k).
    { intros k Rk. apply Rl in Rk. apply Fl in Rk. tauto. }
    assert (Dom : forall g, In g fl -> exists s', fs g = Some (Some s')).
    { clear - T. induction fl as [|x fl IH]; intros g []; subst; simpl in T; destruct T as [(s & E & _) T]; eauto. }
    split.
    - cbn [trees]. split; [|auto]. exists s. split; [auto|split; [exact (IHn _ _ _ _ _ _ _ W R)|split; [intros Rf; apply Fr in Rf; tauto|]]].
      intros g Ig. destruct (Dom _ Ig) as (s' & Eg).
      assert (Qg : forall k, k = g \/ reach fs s' k -> ~ reach fs s k /\ k <> f).
      { intros k Hk. specialize (Q _ _ k Ig Eg Hk). rewrite Im in Q. split; [tauto|]. intros ->. tauto. }
      split; [|split].
      + apply Qg; auto.
      + apply Qg; auto.
      + intros s2 E2. rewrite E2 in Eg. inversion Eg; subst. split.
        * intros Rf. destruct (Qg f); auto.
        * intros k Rk Rk'. destruct (Qg k); auto.
    - intros g s' k [<-|Ig] Eg Hk.
      + rewrite Ff in Eg. inversion Eg; subst. destruct Hk as [->|Hk]; auto. apply Fr in Hk. tauto.
      + specialize (Q _ _ k Ig Eg Hk). rewrite Im in Q. tauto.
  Qed.

  Lemma tree_imports : forall fuel,
    (forall h c p s o h' c' os, wf h (fc_ptr c :: os) -> load fuel h c p (Some s) = (o, h', c') -> tree fs fuel s -> fresh c p s ->
       o = Done \/ o = Failed EAnalysis) ->
    forall fl h d o h' d' os, wf h (fc_ptr d :: os) -> process_imports (load fuel) h d fl = (o, h', d') ->
    trees fs (tree fs fuel) fl -> (forall f s k, In f fl -> fs f = Some (Some s) -> k = f \/ reach fs s k -> ~ In k (fc_imported d)) ->
    o = Done \/ o = Failed EAnalysis.
  Proof.
    intros fuel IHn. induction fl as [|f fl IH]; intros h d o h' d' os W H T Q; simpl in H; [inversion H; auto|].
    cbn [trees] in T. destruct T as [(s & Ff & Ts & Nf & Dj) T].
    assert (Ni : ~ In f (fc_imported d)) by (eapply Q; eauto; left; auto).
    destruct (is_imported d f) eqn:Ii; [apply is_imported_iff in Ii; tauto|]. rewrite Ff in H.
    destruct (load fuel h d (Some f) (Some s)) as [[o1 h1] d1] eqn:R.
    assert (Fr : fresh d (Some f) s).
    { intros k Rk. split; [eapply (Q f); eauto; left; auto|]. intros E. inversion E; subst. tauto. }
    destruct (IHn _ _ _ _ _ _ _ _ W R Ts Fr) as [->| ->]; [|inversion H; auto].
    destruct (@C88_loaded _ _ _ _ _ _ _ _ W R) as (s0 & l & E & _ & _ & _ & _ & _ & Im & _). inversion E; subst s0.
    assert (W1 : wf h1 (fc_ptr d1 :: os)) by (destruct (@load_spec _ _ _ _ _ _ _ _ _ W R) as (_ & L); apply L; discriminate).
    eapply IH; eauto. intros g s' k Ig Eg Hk. rewrite Im. destruct (Dj _ Ig) as (N1 & N2 & N3). destruct (N3 _ Eg) as (N4 & N5).
    intros [J|[J|J]].
    - destruct Hk as [->|Hk]; [auto|]. eapply N5; eauto.
    - inversion J; subst. destruct Hk as [->|Hk]; auto.
    - eapply (Q g s' k); eauto. right; auto.
  Qed.

  (** A source loads only if its imports form a tree of files that are not imported yet, and then
      only the analysis can reject it. *)
  Theorem C88_success : forall fuel h c p s o h' c' os, wf h (fc_ptr c :: os) -> load fuel h c p (Some s) = (o, h', c') ->
    (o = Done -> tree fs fuel s /\ fresh c p s) /\
    (tree fs fuel s /\ fresh c p s -> o = Done \/ o = Failed EAnalysis).
  Proof.
    intros fuel h c p s o h' c' os W H. split.
    - intros ->. split.
      + revert h c p s h' c' os W H. induction fuel as [|fuel IH]; intros h c p s h' c' os W H; [discriminate|].
        cbn [Loading.load] in H. destruct (wf_incr W (q := fc_ptr c)) as (W1 & _); [apply W; left; auto|].
        destruct (add_import_imported c p) as [_ E1].
        destruct (process_imports (load fuel) (hincr h (fc_ptr c)) (add_import c p) (sc_imports s)) as [[o1 h2] d] eqn:P.
        destruct o1; try discriminate. simpl.
        assert (W2 : wf (hincr h (fc_ptr c)) (fc_ptr (add_import c p) :: fc_ptr c :: os)) by (rewrite E1; auto).
        apply (@imports_tree fuel IH _ _ _ _ _ _ W2 P).
      + destruct (@C88_loaded _ _ _ _ _ _ _ _ W H) as (s0 & l & E & _ & _ & R & F & _). inversion E; subst s0.
        intros f Rf. apply R in Rf. apply F in Rf. tauto.
    - intros [T Fr]. revert h c p s o h' c' os W H T Fr. induction fuel as [|fuel IH]; intros h c p s o h' c' os W H T Fr; [destruct T|].
      cbn [Loading.load] in H. destruct (wf_incr W (q := fc_ptr c)) as (W1 & _); [apply W; left; auto|].
      destruct (add_import_imported c p) as [E0 E1].
      destruct (process_imports (load fuel) (hincr h (fc_ptr c)) (add_import c p) (sc_imports s)) as [[o1 h2] d] eqn:P.
      assert (W1' : wf (hincr h (fc_ptr c)) (fc_ptr (add_import c p) :: fc_ptr c :: os)) by (rewrite E1; auto).
      destruct (@tree_imports fuel IH _ _ _ _ _ _ _ W1' P T) as [->| ->].
      + intros f s' k I Ef Hk. rewrite E0, in_app_iff.
        assert (Rk : reach fs s k) by (destruct Hk as [->|Hk]; [apply reach_here; auto|eapply reach_there; eauto]).
        destruct (Fr _ Rk) as [X Y]. intros [J|J]; [|auto]. destruct p; [|destruct J]. destruct J as [->|[]]. auto.
      + destruct (@imports_spec _ (@load_spec fuel) _ _ _ _ _ _ _ W1' P) as (_ & L). destruct L as (W2 & _); [discriminate|].
        destruct (@finish_spec _ _ _ _ _ _ _ _ _ W2 H) as (_ & _ & [(-> & _)|(-> & _)]); auto.
      + inversion H; auto.
  Qed.

  (** ** Termination *)
  Definition unimported (paths : list nat) (imported : list nat) : nat :=
    length (filter (fun f => negb (existsb (Nat.eqb f) imported)) paths).
  Lemma existsb_In : forall l f, existsb (Nat.eqb f) l = true <-> In f l.
  Proof.
    intros. rewrite existsb_exists. split.
    - intros (g & I & E). apply Nat.eqb_eq in E. subst. auto.
    - intros I. exists f. rewrite Nat.eqb_refl. auto.
  Qed.
  Lemma unimported_incl : forall paths i i', (forall f, In f i -> In f i') -> unimported paths i' <= unimported paths i.
  Proof.
    intros paths i i' I. unfold unimported. induction paths as [|f paths IH]; simpl; auto.
    destruct (existsb (Nat.eqb f) i) eqn:E.
    - apply existsb_In in E. apply I in E. apply existsb_In in E. rewrite E. simpl. auto.
    - simpl. destruct (existsb (Nat.eqb f) i'); simpl; lia.
  Qed.
  Lemma unimported_cons : forall paths i f, In f paths -> ~ In f i -> unimported paths (f :: i) < unimported paths i.
  Proof.
    intros paths i f I N. unfold unimported. induction paths as [|g paths IH]; [destruct I|].
    assert (Lt : length (filter (fun k => negb (existsb (Nat.eqb k) (f :: i))) paths) <= length (filter (fun k => negb (existsb (Nat.eqb k) i)) paths)).
    { apply (@unimported_incl paths i (f :: i)). intros; right; auto. }
    destruct I as [->|I].
    - cbn [filter]. assert (E1 : existsb (Nat.eqb f) (f :: i) = true) by (apply existsb_In; left; auto).
      assert (E2 : existsb (Nat.eqb f) i = false) by (destruct (existsb (Nat.eqb f) i) eqn:E; auto; apply existsb_In in E; tauto).
      rewrite E1, E2. simpl in *. lia.
    - specialize (IH I). cbn [filter]. destruct (existsb (Nat.eqb g) i) eqn:E.
      + assert (E1 : existsb (Nat.eqb g) (f :: i) = true) by (apply existsb_In; right; apply existsb_In; auto). rewrite E1. simpl in *. lia.
      + destruct (existsb (Nat.eqb g) (f :: i)); simpl in *; lia.
  Qed.

  (** Loading ends: as many nested loads as there are files, and one, are enough. *)
  Theorem C88_terminates : forall paths, (forall f, fs f <> None -> In f paths) ->
    forall fuel h c p content o h' c' os, wf h (fc_ptr c :: os) -> length paths < fuel -> load fuel h c p content = (o, h', c') -> o <> NoFuel.
  Proof.
    intros paths Fin.
    assert (G : forall fuel h c p content o h' c' os, wf h (fc_ptr c :: os) -> unimported paths (opt_list p ++ fc_imported c) < fuel ->
                load fuel h c p content = (o, h', c') -> o <> NoFuel).
    { induction fuel as [|fuel IH]; intros h c p content o h' c' os W L H; [lia|]. cbn [Loading.load] in H.
      destruct content as [s|]; [|inversion H; discriminate].
      destruct (wf_incr W (q := fc_ptr c)) as (W1 & _); [apply W; left; auto|].
      destruct (add_import_imported c p) as [E0 E1].
      destruct (process_imports (load fuel) (hincr h (fc_ptr c)) (add_import c p) (sc_imports s)) as [[o1 h2] d] eqn:P.
      assert (W1' : wf (hincr h (fc_ptr c)) (fc_ptr (add_import c p) :: fc_ptr c :: os)) by (rewrite E1; auto).
      assert (Q : forall fl h d o h' d' os, wf h (fc_ptr d :: os) -> unimported paths (fc_imported d) < S fuel ->
                  process_imports (load fuel) h d fl = (o, h', d') -> o <> NoFuel).
      { clear - IH Fin. induction fl as [|f fl IHf]; intros h d o h' d' os W L H; simpl in H; [inversion H; discriminate|].
        destruct (is_imported d f) eqn:Ii; [inversion H; discriminate|].
        assert (Ni : ~ In f (fc_imported d)) by (rewrite <- is_imported_iff; congruence).
        destruct (fs f) as [content|] eqn:Ff; [|inversion H; discriminate].
        destruct (load fuel h d (Some f) content) as [[o1 h1] d1] eqn:R.
        assert (Lt : unimported paths (f :: fc_imported d) < unimported paths (fc_imported d)).
        { apply unimported_cons; auto. apply Fin. congruence. }
        assert (N : o1 <> NoFuel) by (eapply (IH h d (Some f)); eauto; simpl; lia).
        destruct o1; try (inversion H; subst; discriminate); [|inversion H; subst; auto].
        destruct (@C88_loaded _ _ _ _ _ _ _ _ W R) as (s & l & _ & _ & _ & _ & _ & _ & Im & _).
        assert (W1 : wf h1 (fc_ptr d1 :: os)) by (destruct (@load_spec _ _ _ _ _ _ _ _ _ W R) as (_ & LL); apply LL; discriminate).
        eapply IHf; eauto. eapply Nat.le_lt_trans; [|exact L]. apply unimported_incl. intros k K. apply Im. auto. }
      assert (N : o1 <> NoFuel) by (eapply Q; eauto; rewrite E0; auto).
      destruct o1; try (inversion H; subst; discriminate); [|tauto].
      destruct (@imports_spec _ (@load_spec fuel) _ _ _ _ _ _ _ W1' P) as (_ & LL). destruct LL as (W2 & _); [discriminate|].
      destruct (@finish_spec _ _ _ _ _ _ _ _ _ W2 H) as (_ & _ & [(-> & _)|(-> & _)]); discriminate. }
    intros fuel h c p content o h' c' os W L H. refine (G _ _ _ _ _ _ _ _ _ W _ H).
    eapply Nat.le_lt_trans; [|exact L]. unfold unimported. clear. induction paths as [|f paths IH]; simpl; [lia|].
    destruct (negb _); simpl; lia.
  Qed.
End Props.

(** ** Examples: the analysis counts items and rejects the item 0; no transformation *)
Definition x_pre (a : nat) (b : list nat) : nat * bool := (a + length b, existsb (Nat.eqb 0) b).
Definition x_tr (a : nat) (b : list nat) : nat * list nat := (a, b).
Definition x_post (a : nat) (b : list nat) : nat * bool := (a, false).
(** a tree: 1 imports 2 and 3; a diamond: 4 imports 5 and 6, which import 2; a cycle: 7 and 8; an error: 9 *)
Definition x_fs (f : nat) : option (option (src nat)) :=
  match f with
  | 1 => Some (Some (mkSrc [2; 3] [11]))
  | 2 => Some (Some (mkSrc [] [12; 13]))
  | 3 => Some (Some (mkSrc [] [14]))
  | 4 => Some (Some (mkSrc [5; 6] [15]))
  | 5 => Some (Some (mkSrc [2] [16]))
  | 6 => Some (Some (mkSrc [2] [17]))
  | 7 => Some (Some (mkSrc [8] [18]))
  | 8 => Some (Some (mkSrc [7] [19]))
  | 9 => Some (Some (mkSrc [3] [0]))
  | 10 => Some None
  | _ => None
  end.
Definition x_heap : heap nat := [(100, 2)].
Definition x_ctx : fctx nat := mkFctx [] [] [] 0.
Lemma x_wf : wf 0 x_heap (fc_ptr x_ctx :: [0]).
Proof.
  split.
  - intros q I. simpl in I. destruct I as [<-|[<-|[]]]; simpl; lia.
  - intros [|q]; simpl; [reflexivity|lia].
Qed.

Example C88_loaded_ex :
  load 0 x_pre x_tr x_post x_fs 11 x_heap x_ctx None (Some (mkSrc [1] [20])) =
    (Done, [(100, 1); (102, 0); (102, 0); (103, 0); (103, 0); (104, 0); (104, 0); (105, 0); (105, 1)],
     mkFctx [3; 2; 1] [Some 2; Some 3; Some 1; None] [12; 13; 14; 11; 20] 8).
Proof. vm_compute. reflexivity. Qed.
Example C88_transaction_ex : exists h,
  load 0 x_pre x_tr x_post x_fs 11 x_heap x_ctx None (Some (mkSrc [2; 9] [20])) = (Failed EAnalysis, h, x_ctx) /\ hread 0 h 0 = 100 /\ hcount 0 h 0 = 2.
Proof. eexists. vm_compute. repeat split. Qed.
Example C88_cycle_ex : reach x_fs (mkSrc [7] []) 7 /\ reach x_fs (mkSrc [8] [18]) 7 /\
  exists h, load 0 x_pre x_tr x_post x_fs 11 x_heap x_ctx None (Some (mkSrc [7] [])) = (Failed (ECycle 7), h, x_ctx).
Proof.
  split; [apply reach_here; simpl; auto|]. split; [eapply reach_there with (g := 8); [simpl; auto|reflexivity|apply reach_here; simpl; auto]|].
  eexists. vm_compute. reflexivity.
Qed.
Example C88_terminates_ex : forall f, x_fs f <> None -> In f [1; 2; 3; 4; 5; 6; 7; 8; 9; 10].
Proof. intros f H. do 11 (destruct f as [|f]; [simpl in *; tauto|]). simpl in H. tauto. Qed.
Example C88_success_ex : tree x_fs 3 (mkSrc [1] [20]) /\ fresh x_fs x_ctx None (mkSrc [1] [20]).
Proof.
  assert (E : forall b k, ~ reach x_fs (mkSrc [] b) k) by (intros b k R; inversion R as [? ? I|? ? ? ? I]; destruct I).
  assert (R1 : forall b k, reach x_fs (mkSrc [2; 3] b) k -> k = 2 \/ k = 3).
  { intros b k R. inversion R as [? ? I|? g s' ? I Eg Rk]; subst; simpl in I.
    - intuition.
    - repeat destruct I as [<-|I]; try destruct I; simpl in Eg; inversion Eg; subst; apply E in Rk; tauto. }
  split.
  - cbn. split; [|exact Logic.I]. eexists. split; [reflexivity|]. split; [|split; [intros R; apply R1 in R; lia|intros ? []]].
    split; [|split; [|exact Logic.I]].
    + eexists. split; [reflexivity|]. split; [exact Logic.I|split; [apply E|]]. intros g [<-|[]]. split; [lia|split; [apply E|]].
      intros s' Es. inversion Es; subst. split; [apply E|]. intros k R. apply E in R. tauto.
    + eexists. split; [reflexivity|]. split; [exact Logic.I|split; [apply E|]]. intros g [].
  - intros f _. split; [intros []|discriminate].
Qed.

(** ** Refutations *)
(** Imports without a cycle are rejected as a cycle if two files import the same file. *)
Theorem C88_diamond_refuted : exists s f h,
  (exists rank, (forall k, reach x_fs s k -> forall s', x_fs k = Some (Some s') -> forall k', reach x_fs s' k' -> rank k' < rank k)) /\
  (forall k, reach x_fs s k -> exists s', x_fs k = Some (Some s')) /\
  load 0 x_pre x_tr x_post x_fs 11 x_heap x_ctx None (Some s) = (Failed (ECycle f), h, x_ctx) /\
  exists h' c', load 0 x_pre x_tr x_post x_fs 11 x_heap x_ctx None (Some (mkSrc [5] [])) = (Done, h', c').
Proof.
  assert (E0 : forall b k, ~ reach x_fs (mkSrc [] b) k) by (intros b k R; inversion R as [? ? I|? ? ? ? I]; destruct I).
  assert (E2 : forall b k, reach x_fs (mkSrc [2] b) k -> k = 2).
  { intros b k R. inversion R as [? ? I|? g s' ? I Eg Rk]; subst; simpl in I.
    - intuition.
    - destruct I as [<-|[]]. simpl in Eg. inversion Eg; subst. apply E0 in Rk. tauto. }
  assert (E5 : forall b k, reach x_fs (mkSrc [5; 6] b) k -> k = 2 \/ k = 5 \/ k = 6).
  { intros b k R. inversion R as [? ? I|? g s' ? I Eg Rk]; subst; simpl in I.
    - intuition.
    - destruct I as [<-|[<-|[]]]; simpl in Eg; inversion Eg; subst; apply E2 in Rk; auto. }
  exists (mkSrc [5; 6] [15]), 2. eexists. split; [|split; [|split]].
  - exists (fun k => k). intros k R s' Es k' R'. apply E5 in R. destruct R as [-> |[-> | ->]]; simpl in Es; inversion Es; subst.
    + apply E0 in R'. tauto.
    + apply E2 in R'. lia.
    + apply E2 in R'. lia.
  - intros k R. apply E5 in R. destruct R as [-> |[-> | ->]]; simpl; eauto.
  - vm_compute. reflexivity.
  - do 2 eexists. vm_compute. reflexivity.
Qed.

(** A second source that imports a file imported by the first is rejected. *)
Theorem C88_again_refuted : exists h c h' e,
  load 0 x_pre x_tr x_post x_fs 11 x_heap x_ctx None (Some (mkSrc [2] [20])) = (Done, h, c) /\
  load 0 x_pre x_tr x_post x_fs 11 h c None (Some (mkSrc [2] [21])) = (Failed e, h', c).
Proof.
  destruct (load 0 x_pre x_tr x_post x_fs 11 x_heap x_ctx None (Some (mkSrc [2] [20]))) as [[o h] c] eqn:E. vm_compute in E. inversion E; subst.
  do 4 eexists. split; [reflexivity|]. vm_compute. reflexivity.
Qed.

(** A file that is given directly is not checked: loading it twice adds its items twice. *)
Theorem C88_twice_refuted : exists h c h' c' s,
  x_fs 2 = Some (Some s) /\
  load 0 x_pre x_tr x_post x_fs 11 x_heap x_ctx (Some 2) (Some s) = (Done, h, c) /\
  load 0 x_pre x_tr x_post x_fs 11 h c (Some 2) (Some s) = (Done, h', c') /\
  In 2 (fc_imported c) /\ fc_items c' = sc_body s ++ sc_body s /\ fc_sources c' = [Some 2; Some 2].
Proof.
  destruct (load 0 x_pre x_tr x_post x_fs 11 x_heap x_ctx (Some 2) (Some (mkSrc [] [12; 13]))) as [[o h] c] eqn:E.
  destruct (load 0 x_pre x_tr x_post x_fs 11 h c (Some 2) (Some (mkSrc [] [12; 13]))) as [[o' h'] c'] eqn:E'.
  vm_compute in E. inversion E; subst. vm_compute in E'. inversion E'; subst.
  do 5 eexists. split; [reflexivity|]. split; [reflexivity|]. split; [vm_compute; reflexivity|]. simpl. auto.
Qed.

Print Assumptions C88_transaction.
Print Assumptions C88_loaded.
Print Assumptions C88_cycle.
Print Assumptions C88_success.
Print Assumptions C88_terminates.
Print Assumptions C88_diamond_refuted.
Print Assumptions C88_again_refuted.
Print Assumptions C88_twice_refuted.
