(** A malformed line is dropped without disturbing the rest (C20). *)
From Coq Require Import List NArith Bool PeanoNat Lia ZifyBool ZifyNat ZifyN.
From Verif Require Import Base Types Codec Handle Receive ServerSend Server SpecFraming
  SpecClient SpecServer SpecDrive ReceiveProofs ClientRecv ServerRecv ServerAbs ServerInv
  ServerProps ServerLive ServerDet.
Import ListNotations.

Lemma no_malformed_app : forall h1 h2, no_malformed (h1 ++ h2) = no_malformed h1 ++ no_malformed h2.
Proof. intros. apply filter_app. Qed.

Lemma settled_no_malformed : forall h, settled (no_malformed h) = true -> settled h = true.
Proof.
  intro h. induction h as [|e h IH] using rev_ind; [auto|].
  unfold settled. rewrite no_malformed_app, last_result_app. cbn [no_malformed filter].
  destruct e as [| | | | | | |r|]; cbn [not_malformed]; rewrite ?app_nil_r;
    try (rewrite last_result_app; exact IH).
  destruct r as [e| | | |e| |]; try (rewrite last_result_app; auto; fail).
  destruct e; try (rewrite last_result_app; auto; fail); reflexivity.
Qed.

Section Bad.
  Variable K : Codecs.
  Variable o : soptions.

  Notation xnext := (xnext K o).
  Notation srel := (srel K o).
  Notation xwf := (xwf K o).

  Definition x_set_rest (a : xstate) (b : bytes) : xstate :=
    XState (x_gen a) (x_send a) (x_mode a) (x_pre a) (x_lits a) (x_need a) b.

  (** Nothing of a message was received. *)
  Definition x_empty (a : xstate) : Prop := x_pre a = [] /\ x_lits a = [] /\ x_need a = 0%N.

  Variable app0 : list slog -> option sop.
  Hypothesis Happ : polite app0.
  Notation act := (fun h => app0 (no_malformed h)).
  Notation xdrive := (xdrive K o act).

  Lemma act_polite : polite act.
  Proof. intros h p H. apply settled_no_malformed. eapply Happ; eauto. Qed.

  Variable raw : bytes.
  (** The frame is bad for everything that may be expected when it is read. *)
  Notation bad_line m := (sbad K o m raw).

  Definition bad_all (m : expected) : Prop :=
    bad_line m /\ (m = ExAuthenticateData -> bad_line ExCommand).

  Lemma bad_line_frame : forall m, bad_line m -> exists v, (v = SvMalformed \/ v = SvBareLf) /\
    sframe K o m raw [] v /\ (N.of_nat (length raw) <= so_max_command_size o)%N.
  Proof. intros m (v & [->| ->] & H); eauto. Qed.

  Lemma bad_call : forall a p a' e b, is_scall p -> x_empty a -> bad_all (x_mode a) ->
    xcall (x_set_rest a b) p = Some (a', e) ->
    exists a2, x_empty a2 /\ bad_all (x_mode a2) /\ a' = x_set_rest a2 b /\
      forall b', xcall (x_set_rest a b') p = Some (x_set_rest a2 b', e).
  Proof.
    intros a p a' e b Hp He Hb H.
    assert (Hi : x_mode a <> ExIdleAccept).
    { intro E. destruct Hb as [Hb _]. rewrite E in Hb. apply bad_line_frame in Hb.
      destruct Hb as (v & _ & Hf & _). exact Hf. }
    destruct p; try contradiction; cbn in H.
    - injection H as <- <-.
      eexists (XState _ _ (x_mode a) (x_pre a) (x_lits a) (x_need a) []).
      split; [exact He|]. split; [exact Hb|]. split; reflexivity.
    - destruct (x_mode a) eqn:Em; injection H as <- <-;
        try (exists a; split; [exact He|]; rewrite Em; split; [exact Hb|]; split; [reflexivity|];
             intro b'; cbn; rewrite Em; reflexivity).
      eexists (XState _ _ ExAuthenticateData (x_pre a) (x_lits a) (x_need a) []).
      split; [exact He|]. split; [exact Hb|]. split; [reflexivity|].
      intro b'. cbn. rewrite Em. reflexivity.
    - destruct (x_mode a) eqn:Em; injection H as <- <-;
        try (exists a; split; [exact He|]; rewrite Em; split; [exact Hb|]; split; [reflexivity|];
             intro b'; cbn; rewrite Em; reflexivity).
      eexists (XState _ _ ExCommand (x_pre a) (x_lits a) (x_need a) []).
      split; [exact He|]. split.
      + split; [apply Hb; reflexivity|discriminate].
      + split; [reflexivity|]. intro b'. cbn. rewrite Em. reflexivity.
    - destruct (x_mode a) eqn:Em; [| |congruence|]; injection H as <- <-;
        (exists a; split; [exact He|]; rewrite Em; split; [exact Hb|]; split; [reflexivity|];
             intro b'; cbn; rewrite Em; reflexivity).
    - destruct (x_mode a) eqn:Em; [| |congruence|]; injection H as <- <-;
        (exists a; split; [exact He|]; rewrite Em; split; [exact Hb|]; split; [reflexivity|];
             intro b'; cbn; rewrite Em; reflexivity).
  Qed.

  (** [next] with a bad line in front of the buffer: either it acts whatever the input, or
      the line is dropped. *)
  Lemma bad_next : forall a rest, x_polite a -> x_empty a -> bad_all (x_mode a) ->
    (exists r a', r <> INeedMore /\ not_malformed (SlNext r) = true /\ x_empty a' /\
       x_mode a' = x_mode a /\
       forall b, xnext (x_set_rest a b) [] r (x_set_rest a' b)) \/
    (exists s1 v r, quiet (x_send a) = Some s1 /\ s1 = SSend [] None /\ not_malformed (SlNext r) = false /\
       r <> INeedMore /\ r <> IPanic /\
       xnext (x_set_rest a (raw ++ rest)) [SrxMsg raw v] r (x_set_rest (x_set_send a s1) rest)).
  Proof.
    intros a rest P He Hb. destruct (quiet (x_send a)) as [s1|] eqn:Hq.
    - right. pose proof (polite_quiet _ _ P Hq) as ->.
      destruct Hb as [Hb _]. apply bad_line_frame in Hb as (v & Hv & Hf & Hl).
      destruct He as (E1 & E2 & E3).
      exists (SSend [] None), v, (sresult raw v). split; [reflexivity|]. split; [reflexivity|].
      split; [destruct Hv as [->| ->]; reflexivity|].
      split; [destruct Hv as [->| ->]; discriminate|].
      split; [destruct Hv as [->| ->]; discriminate|].
      apply xn_last.
      replace (x_set_rest (x_set_send a (SSend [] None)) rest) with
        (x_start (x_set_rest a (raw ++ rest)) (ss_push (SSend [] None) (pushed_by o v))
           (mode_after (x_mode a) v) rest).
      + apply (x_msg K o (x_set_rest a (raw ++ rest)) _ raw rest v); auto.
        * unfold x_buf. cbn. now rewrite E1.
        * cbn. now rewrite E2.
      + unfold x_start, x_set_rest, x_set_send. cbn. rewrite E1, E2, E3.
        destruct Hv as [->| ->]; reflexivity.
    - left. unfold quiet in Hq. destruct (ss_current (x_send a)) as [m|] eqn:Ec.
      + assert (X : exists e, sent_event m = Some e) by (destruct m as [g|[h|] r]; cbn; eauto; discriminate).
        destruct X as (e & Ee).
        exists (IEvent e), (x_set_send a (SSend (ss_queue (x_send a)) None)).
        split; [discriminate|]. split; [reflexivity|]. split; [exact He|]. split; [reflexivity|].
        intro b. apply xn_last. exact (x_sent K o (x_set_rest a b) m e Ec Ee).
      + destruct (ss_queue (x_send a)) as [|m q] eqn:Eq; [discriminate|].
        exists (IOutput (smsg_bytes K m)), (x_set_send a (SSend q (Some m))).
        split; [discriminate|]. split; [reflexivity|]. split; [exact He|]. split; [reflexivity|].
        intro b. apply xn_last. exact (x_out K o (x_set_rest a b) m q Ec Eq).
  Qed.

  Lemma xdrive_history : forall A h h', xdrive A h h' -> forall h2, no_malformed h2 = no_malformed h ->
    exists h2', xdrive A h2 h2' /\ no_malformed h2' = no_malformed h'.
  Proof.
    induction 1 as [b h|b h p e b' h' H1 H2 H3 _ IH|b h g r b' h' H1 H2 H3 H4 _ IH|b h g b' H1 H2];
      intros h2 E; cbn beta in *; try rewrite <- E in H1.
    - exists h2. split; [apply xd_stop|assumption].
    - destruct (IH (h2 ++ [e])) as (h2' & D & E'); [rewrite !no_malformed_app; congruence|].
      exists h2'. split; [eapply xd_call; eauto|assumption].
    - destruct (IH (h2 ++ [SlNext r])) as (h2' & D & E'); [rewrite !no_malformed_app; congruence|].
      exists h2'. split; [eapply xd_next; eauto|assumption].
    - exists (h2 ++ [SlPanic]). split; [eapply xd_next_panic; eauto|].
      rewrite !no_malformed_app. congruence.
  Qed.

  (** A finished internal response makes no difference. *)
  Lemma xdrive_send : forall a s h h', x_polite a -> quiet (x_send a) = Some s -> act h = None ->
    xdrive (x_set_send a s) h h' -> xdrive a h h'.
  Proof.
    intros a s h h' P Hq Ha H. remember (x_set_send a s) as b eqn:Eb.
    destruct H as [b h|b h p e b' h' H1 H2 H3 H4|b h g r b' h' H1 H2 H3 H4 H5|b h g b' H1 H2];
      subst b; try congruence.
    - apply xd_stop.
    - eapply xd_next; eauto. eapply xnext_send; eauto.
    - eapply xd_next_panic; eauto. eapply xnext_send; eauto.
  Qed.

  Lemma xdrive_send_back : forall a s h h', xwf a -> x_polite a -> quiet (x_send a) = Some s ->
    act h = None -> xdrive a h h' -> xdrive (x_set_send a s) h h'.
  Proof.
    intros a s h h' W P Hq Ha H.
    assert (W2 : xwf (x_set_send a s)) by exact W.
    destruct (xnext_total K o _ W2) as (g2 & r2 & a2 & N).
    pose proof (xnext_send K o _ _ _ _ _ P Hq N) as N2.
    destruct H as [b h|b h p e b' h' H1 H2 H3 H4|b h g r b' h' H1 H2 H3 H4 H5|b h g b' H1 H2];
      try congruence.
    - apply xd_stop.
    - destruct (xnext_det K o _ _ _ _ H2 W _ _ _ N2) as (-> & -> & Eb).
      rewrite (Eb H4) in *. eapply xd_next; eauto.
    - destruct (xnext_det K o _ _ _ _ H2 W _ _ _ N2) as (-> & <- & _).
      eapply xd_next_panic; eauto.
  Qed.

  Notation xgood := (xgood K o).

  Lemma xgood_rest : forall a b h, xgood a h -> xgood (x_set_rest a b) h.
  Proof. intros a b h H. exact H. Qed.

  Lemma bad_dropped : forall A h h', xdrive A h h' -> forall a rest,
    A = x_set_rest a (raw ++ rest) -> xgood A h -> x_empty a -> bad_all (x_mode a) ->
    forall h2, no_malformed h2 = no_malformed h ->
    exists h2', xdrive (x_set_rest a rest) h2 h2' /\ no_malformed h2' = no_malformed h'.
  Proof.
    induction 1 as [b h|b h p e b' h' H1 H2 H3 _ IH|b h g r b' h' H1 H2 H3 H4 H5 IH|b h g b' H1 H2];
      intros a rest EA G He Hbad h2 E.
    - exists h2. split; [apply xd_stop|assumption].
    - pose proof (xgood_call K o _ act_polite _ _ _ _ _ G H1 H3) as G'.
      subst b. destruct (bad_call _ _ _ _ _ H2 He Hbad H3) as (a2 & He2 & Hb2 & -> & X).
      destruct (IH a2 rest eq_refl G' He2 Hb2 (h2 ++ [e])) as (h2' & D & E').
      + rewrite !no_malformed_app. congruence.
      + exists h2'. split; [|assumption]. eapply xd_call; [|exact H2|apply X|exact D].
        cbn beta in *. now rewrite E.
    - pose proof (xgood_next K o _ _ _ _ _ G H2 H4) as G'. pose proof G as (W & P & _).
      subst b. destruct (bad_next a rest P He Hbad) as
        [(r2 & a2 & Hr2 & _ & He2 & Hm2 & N)|(s1 & v & r2 & Hq & Es & Hnm & Hr & Hp & N)].
      + destruct (xnext_det K o _ _ _ _ H2 W _ _ _ (N _)) as (-> & -> & Eb).
        specialize (Eb H4). subst b'. rewrite <- Hm2 in Hbad.
        destruct (IH a2 rest eq_refl G' He2 Hbad (h2 ++ [SlNext r2])) as (h2' & D & E').
        * rewrite !no_malformed_app. congruence.
        * exists h2'. split; [|assumption].
          eapply xd_next; [|apply N|assumption|assumption|exact D]. cbn beta in *. now rewrite E.
      + destruct (xnext_det K o _ _ _ _ H2 W _ _ _ N) as (-> & -> & Eb).
        specialize (Eb H4). subst b'.
        destruct (xdrive_history _ _ _ H5 h2) as (h2' & D & E').
        * rewrite no_malformed_app. unfold no_malformed at 3. cbn [filter]. rewrite Hnm.
          now rewrite app_nil_r.
        * exists h2'. split; [|assumption].
          apply (xdrive_send (x_set_rest a rest) s1); auto. cbn beta in *. now rewrite E.
    - pose proof G as (W & P & _).
      subst b. destruct (bad_next a rest P He Hbad) as
        [(r2 & a2 & Hr2 & _ & He2 & Hm2 & N)|(s1 & v & r2 & Hq & Es & Hnm & Hr & Hp & N)].
      + destruct (xnext_det K o _ _ _ _ H2 W _ _ _ (N _)) as (-> & <- & _).
        exists (h2 ++ [SlPanic]). split; [|rewrite !no_malformed_app; congruence].
        eapply xd_next_panic; [|apply N]. cbn beta in *. now rewrite E.
      + destruct (xnext_det K o _ _ _ _ H2 W _ _ _ N) as (_ & X & _). congruence.
  Qed.

  Lemma bad_inserted : forall A h h', xdrive A h h' -> forall a rest,
    A = x_set_rest a rest -> xgood A h -> x_empty a -> bad_all (x_mode a) ->
    forall h2, no_malformed h2 = no_malformed h ->
    exists h2', xdrive (x_set_rest a (raw ++ rest)) h2 h2' /\ no_malformed h2' = no_malformed h'.
  Proof.
    induction 1 as [b h|b h p e b' h' H1 H2 H3 _ IH|b h g r b' h' H1 H2 H3 H4 H5 IH|b h g b' H1 H2];
      intros a rest EA G He Hbad h2 E.
    - exists h2. split; [apply xd_stop|assumption].
    - pose proof (xgood_call K o _ act_polite _ _ _ _ _ G H1 H3) as G'.
      subst b. destruct (bad_call _ _ _ _ _ H2 He Hbad H3) as (a2 & He2 & Hb2 & -> & X).
      destruct (IH a2 rest eq_refl G' He2 Hb2 (h2 ++ [e])) as (h2' & D & E').
      + rewrite !no_malformed_app. congruence.
      + exists h2'. split; [|assumption]. eapply xd_call; [|exact H2|apply X|exact D].
        cbn beta in *. now rewrite E.
    - pose proof (xgood_next K o _ _ _ _ _ G H2 H4) as G'. pose proof G as (W & P & _).
      subst b. destruct (bad_next a rest P He Hbad) as
        [(r2 & a2 & Hr2 & _ & He2 & Hm2 & N)|(s1 & v & r2 & Hq & Es & Hnm & Hr & Hp & N)].
      + destruct (xnext_det K o _ _ _ _ H2 W _ _ _ (N _)) as (-> & -> & Eb).
        specialize (Eb H4). subst b'. rewrite <- Hm2 in Hbad.
        destruct (IH a2 rest eq_refl G' He2 Hbad (h2 ++ [SlNext r2])) as (h2' & D & E').
        * rewrite !no_malformed_app. congruence.
        * exists h2'. split; [|assumption].
          eapply xd_next; [|apply N|assumption|assumption|exact D]. cbn beta in *. now rewrite E.
      + assert (D0 : xdrive (x_set_rest a rest) h h') by (eapply xd_next; eauto).
        pose proof (xdrive_send_back (x_set_rest a rest) s1 _ _ W P Hq H1 D0) as D1.
        destruct (xdrive_history _ _ _ D1 (h2 ++ [SlNext r2])) as (h2' & D & E').
        * rewrite no_malformed_app. unfold no_malformed at 2. cbn [filter]. rewrite Hnm.
          now rewrite app_nil_r.
        * exists h2'. split; [|assumption].
          eapply xd_next; [|exact N|assumption|assumption|exact D]. cbn beta in *. now rewrite E.
    - pose proof G as (W & P & _).
      subst b. destruct (bad_next a rest P He Hbad) as
        [(r2 & a2 & Hr2 & _ & He2 & Hm2 & N)|(s1 & v & r2 & Hq & Es & Hnm & Hr & Hp & N)].
      + destruct (xnext_det K o _ _ _ _ H2 W _ _ _ (N _)) as (-> & <- & _).
        exists (h2 ++ [SlPanic]). split; [|rewrite !no_malformed_app; congruence].
        eapply xd_next_panic; [|apply N]. cbn beta in *. now rewrite E.
      + assert (D0 : xdrive (x_set_rest a rest) h (h ++ [SlPanic])) by (eapply xd_next_panic; eauto).
        pose proof (xdrive_send_back (x_set_rest a rest) s1 _ _ W P Hq H1 D0) as D1.
        destruct (xdrive_history _ _ _ D1 (h2 ++ [SlNext r2])) as (h2' & D & E').
        * rewrite no_malformed_app. unfold no_malformed at 2. cbn [filter]. rewrite Hnm.
          now rewrite app_nil_r.
        * exists h2'. split; [|assumption].
          eapply xd_next; [|exact N|assumption|assumption|exact D]. cbn beta in *. now rewrite E.
  Qed.

  Lemma sdrive_bad : forall s a rest xs ys hh,
    srel s a -> x_calm a -> x_buf a = [] -> x_lits a = [] -> x_need a = 0%N -> bad_all (x_mode a) ->
    concat xs = raw ++ rest -> concat ys = rest ->
    (exists h, sdrive K act s xs [] h /\ no_malformed h = hh) <->
    (exists h, sdrive K act s ys [] h /\ no_malformed h = hh).
  Proof.
    intros s a rest xs ys hh R C B L N Hbad Ex Ey.
    apply app_eq_nil in B as [B1 B2].
    assert (He : x_empty a) by (repeat split; auto).
    assert (EA : forall b, x_add a b = x_set_rest a b).
    { intro b. unfold x_add. now rewrite B2. }
    assert (G : xgood a []) by (split; [apply R|]; split; [now left|auto]).
    split; intros (h & D & <-).
    - pose proof (sdrive_xdrive K o _ act_polite _ _ _ _ D a R G) as D1. rewrite EA, Ex in D1.
      destruct (bad_dropped _ _ _ D1 a rest eq_refl G He Hbad [] eq_refl) as (h2 & D2 & E2).
      exists h2. split; [|assumption].
      eapply xdrive_sdrive; [apply act_polite|exact D2|exact R|exact G|]. now rewrite EA, Ey.
    - pose proof (sdrive_xdrive K o _ act_polite _ _ _ _ D a R G) as D1. rewrite EA, Ey in D1.
      destruct (bad_inserted _ _ _ D1 a rest eq_refl G He Hbad [] eq_refl) as (h2 & D2 & E2).
      exists h2. split; [|assumption].
      eapply xdrive_sdrive; [apply act_polite|exact D2|exact R|exact G|]. now rewrite EA, Ex.
  Qed.
End Bad.
