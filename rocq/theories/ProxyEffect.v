(** What a call of the API changes, as far as the proxy depends on it: the message that the
    server expects, and the AUTHENTICATE and IDLE commands that the client has not
    finished. *)
From Coq Require Import List NArith Bool PeanoNat.
From Verif Require Import Base Types Codec Handle Receive ClientSend Client ServerSend Server
  SpecFraming SpecClient SpecServer ReceiveProofs ClientRecv ClientAbs ServerAbs ServerInv.
Import ListNotations.

(** ** Server *)

Section ServerMode.
  Variable K : Codecs.
  Variable o : soptions.

  (** [s] is a reachable state that expects [m]. *)
  Definition sgood (s : server) (m : expected) : Prop :=
    exists a, srel K o s a /\ ServerAbs.x_mode a = m.

  Lemma sgood_new : forall g gr, sgood (server_new g o gr) ExCommand.
  Proof. intros g gr. eexists. split; [apply srel_new|reflexivity]. Qed.

  Lemma mode_after_result : forall m raw v,
    mode_after m v = smode_step m (SlNext (sresult raw v)).
  Proof.
    intros m raw v. destruct v; try reflexivity.
    cbn. unfold command_event. destruct (cbody c); reflexivity.
  Qed.

  Lemma xcall_mode : forall a p a' e, xcall a p = Some (a', e) ->
    ServerAbs.x_mode a' = smode_step (ServerAbs.x_mode a) e.
  Proof.
    intros a p a' e H. destruct p; cbn in H; unfold xenqueue in H;
      try destruct (ServerAbs.x_mode a) eqn:E;
      repeat match type of H with context [hgen_generate ?g] => destruct (hgen_generate g) end;
      try discriminate; injection H as <- <-; cbn; congruence.
  Qed.

  Lemma xstep_mode : forall a l a', ServerAbs.xstep K o a l a' ->
    ServerAbs.x_mode a' = fold_left smode_step l (ServerAbs.x_mode a).
  Proof.
    intros a l a' H. destruct H; cbn [fold_left]; try reflexivity.
    - eapply xcall_mode; eauto.
    - destruct m; cbn in H0; try (injection H0 as <-; reflexivity).
      destruct h; [|discriminate]. injection H0 as <-. reflexivity.
    - cbn. congruence.
    - cbn [x_start ServerAbs.x_mode]. rewrite (mode_after_result _ raw). reflexivity.
  Qed.

  Lemma xsteps_mode : forall a l a', ServerAbs.xsteps K o a l a' ->
    ServerAbs.x_mode a' = fold_left smode_step l (ServerAbs.x_mode a).
  Proof.
    intros a l a' H. induction H as [a|a l a1 l1 a2 H IH H1]; [reflexivity|].
    rewrite fold_left_app, <- IH. eapply xstep_mode; eauto.
  Qed.

  (** Events occur only when they are expected. *)
  Definition expects (m : expected) (e : slog) : Prop :=
    match e with
    | SlNext (IEvent (SeCommandReceived c)) =>
        m = ExCommand /\ exists p, cbody c = BOther p
    | SlNext (IEvent (SeCommandAuthenticateReceived _)) | SlNext (IEvent (SeIdleCommandReceived _)) =>
        m = ExCommand
    | SlNext (IEvent (SeAuthenticateDataReceived _)) => m = ExAuthenticateData
    | SlNext (IEvent SeIdleDoneReceived) => m = ExIdleDone
    | _ => True
    end.
  Fixpoint expect (m : expected) (l : list slog) : Prop :=
    match l with
    | [] => True
    | e :: l' => expects m e /\ expect (smode_step m e) l'
    end.

  Lemma expect_app : forall l1 l2 m, expect m l1 -> expect (fold_left smode_step l1 m) l2 ->
    expect m (l1 ++ l2).
  Proof. induction l1 as [|e l1 IH]; cbn; intros l2 m H1 H2; [exact H2|]. destruct H1; auto. Qed.

  Lemma xstep_expect : forall a l a', ServerAbs.xstep K o a l a' -> expect (ServerAbs.x_mode a) l.
  Proof.
    intros a l a' H. destruct H; cbn [expect]; repeat split; try exact I.
    - destruct p; cbn in H; unfold xenqueue in H; try destruct (ServerAbs.x_mode a);
        repeat match type of H with context [hgen_generate ?g] => destruct (hgen_generate g) end;
        try discriminate; injection H as <- <-; exact I.
    - destruct m; cbn in H0; try (injection H0 as <-; exact I).
      destruct h; [|discriminate]. injection H0 as <-. exact I.
    - cbn [smode_step]. destruct v; try exact I; cbn in *; try unfold command_event;
        destruct (ServerAbs.x_mode a); try contradiction;
        try (destruct H1 as [_ H1]; contradiction); auto.
      destruct (cbody c) eqn:B; cbn; eauto.
  Qed.

  Lemma xsteps_expect : forall a l a', ServerAbs.xsteps K o a l a' -> expect (ServerAbs.x_mode a) l.
  Proof.
    intros a l a' H. induction H as [a|a l a1 l1 a2 H IH H1]; [exact I|].
    apply expect_app; [exact IH|]. rewrite <- (xsteps_mode _ _ _ H). eapply xstep_expect; eauto.
  Qed.

  Lemma sgood_expect : forall s m p s' l, sgood s m -> server_step K s p = (Some s', l) -> expect m l.
  Proof.
    intros s m p s' l (a & R & <-) E.
    destruct (server_step_sim K o s a p s' l R E) as (a' & S & _). eapply xsteps_expect; eauto.
  Qed.

  Lemma sgood_step : forall s m p s' l, sgood s m -> server_step K s p = (Some s', l) ->
    sgood s' (fold_left smode_step l m).
  Proof.
    intros s m p s' l (a & R & <-) E.
    destruct (server_step_sim K o s a p s' l R E) as (a' & S & R').
    exists a'. split; [exact R'|]. eapply xsteps_mode; eauto.
  Qed.

  (** Results of calls. *)
  Lemma sgood_call : forall s m p s' e, sgood s m -> server_step K s p = (Some s', [e]) ->
    match e with
    | SlAuthContinue q r => call_result (expected_eqb m ExAuthenticateData) q r
    | SlAuthFinish t r => call_result (expected_eqb m ExAuthenticateData) t r
    | SlIdleAccept q r => call_result (expected_eqb m ExIdleAccept) q r
    | SlIdleReject t r => call_result (expected_eqb m ExIdleAccept) t r
    | _ => True
    end.
  Proof.
    intros s m p s' e (a & R & <-) E.
    assert (N : p = SopNext \/ p <> SopNext) by (destruct p; auto; right; discriminate).
    destruct N as [->|N].
    - unfold server_step in E. destruct (server_next K s) as [[s1 g] r].
      destruct (s_is_panic r); [discriminate|]. injection E as _ E.
      destruct g as [|x g]; cbn in E; [injection E as <-; exact I|].
      injection E as <- _. exact I.
    - destruct (server_call_sim K o s a p s' [e] R N E) as (a' & e' & E1 & E2 & _).
      injection E1 as <-. destruct p; cbn in E2; unfold xenqueue in E2;
        repeat match type of E2 with context [hgen_generate ?g] => destruct (hgen_generate g) end;
        destruct (ServerAbs.x_mode a); try discriminate; injection E2 as _ <-; cbn; auto.
  Qed.
End ServerMode.

(** ** Client *)

(** An AUTHENTICATE whose status is awaited ([asked]: data is due), or an IDLE ([accepted])
    that was not ended. *)
Inductive special : Type := SpAuth (asked : bool) | SpIdle (accepted : bool).

Definition special_cmd (c : command) : list special :=
  match cbody c with
  | BAuthenticate _ _ => [SpAuth false]
  | BIdle => [SpIdle false]
  | BOther _ => []
  end.
Definition special_cur (m : current_message) : list special :=
  match m with
  | CmCommand _ _ _ _ => []
  | CmAuthenticate _ _ AaWaitingForAuthenticateDataSet => [SpAuth true]
  | CmAuthenticate _ _ _ => [SpAuth false]
  | CmIdle _ _ IaWaitingForIdleDoneSet => [SpIdle true]
  | CmIdle _ _ (IaPushingIdleDone _) | CmIdle _ _ IaWaitingForIdleDoneSent => []
  | CmIdle _ _ _ => [SpIdle false]
  end.
Definition specials (s : csend) : list special :=
  match cs_current s with Some m => special_cur m | None => [] end ++
  flat_map (fun x => special_cmd (snd x)) (cs_queue s).

(** Events that change nothing. A command is rejected by a tagged status. *)
Definition neutral (e : cevent) : bool :=
  match e with
  | CeCommandRejected _ _ (StUntagged _) | CeCommandRejected _ _ (StBye _ _) => false
  | CeAuthenticateContinuationRequestReceived _ _ | CeAuthenticateStatusReceived _ _ _
  | CeIdleAccepted _ _ | CeIdleRejected _ _ => false
  | _ => true
  end.

Inductive eff : list special -> clog -> list special -> Prop :=
| ef_enqueue : forall sp c h, eff sp (ClEnqueue c h) (sp ++ special_cmd c)
| ef_auth : forall sp d h, eff (SpAuth true :: sp) (ClSetAuth d (inl h)) (SpAuth false :: sp)
| ef_no_auth : forall sp d, (forall sp', sp <> SpAuth true :: sp') -> eff sp (ClSetAuth d (inr d)) sp
| ef_done : forall sp h, eff (SpIdle true :: sp) (ClSetDone (Some h)) sp
| ef_no_done : forall sp, (forall sp', sp <> SpIdle true :: sp') -> eff sp (ClSetDone None) sp
| ef_cont : forall sp h q,
    eff (SpAuth false :: sp) (ClNext (IEvent (CeAuthenticateContinuationRequestReceived h q)))
      (SpAuth true :: sp)
| ef_status : forall sp b h ca t,
    eff (SpAuth b :: sp) (ClNext (IEvent (CeAuthenticateStatusReceived h ca t))) sp
| ef_accepted : forall sp h q,
    eff (SpIdle false :: sp) (ClNext (IEvent (CeIdleAccepted h q))) (SpIdle true :: sp)
| ef_rejected : forall sp b h t, eff (SpIdle b :: sp) (ClNext (IEvent (CeIdleRejected h t))) sp
| ef_event : forall sp e, neutral e = true -> eff sp (ClNext (IEvent e)) sp
| ef_result : forall sp r, (forall e, r <> IEvent e) -> eff sp (ClNext r) sp
| ef_input : forall sp x, eff sp (ClInput x) sp
| ef_rx : forall sp x, eff sp (ClRx x) sp.

Inductive effs : list special -> list clog -> list special -> Prop :=
| efs_nil : forall sp, effs sp [] sp
| efs_cons : forall sp e sp1 l sp2, eff sp e sp1 -> effs sp1 l sp2 -> effs sp (e :: l) sp2.

Lemma effs_app : forall sp l1 sp1 l2 sp2, effs sp l1 sp1 -> effs sp1 l2 sp2 -> effs sp (l1 ++ l2) sp2.
Proof. intros sp l1 sp1 l2 sp2 H. induction H; cbn; [auto|]. intro. econstructor; eauto. Qed.

Lemma effs_one : forall sp e sp', eff sp e sp' -> effs sp [e] sp'.
Proof. intros. econstructor; [eassumption|constructor]. Qed.

Section ClientSpecials.
  Variable K : Codecs.

  Lemma progress_specials : forall q m s r, cs_progress q m = (s, r) ->
    specials s = specials (CSend q (Some m)).
  Proof.
    intros q m s r H. unfold cs_progress in H.
    destruct (cm_push_to_buffer m) as [out m1] eqn:P.
    destruct m as [h c fs act|h ca act|h t act]; destruct act; cbn in P;
      try (destruct (push_fragments fs) as [[out0 limbo] fs']);
      injection P as <- <-;
      try (destruct (opt_bytes _ ++ out0));
      cbn in H;
      repeat match type of H with
        | context [match ?x with [] => _ | _ :: _ => _ end] => destruct x
        | context [match ?x with Some _ => _ | None => _ end] => destruct x
        end;
      injection H as <- <-; reflexivity.
  Qed.

  Lemma start_specials : forall h c m, queued_start K h c = Val m -> special_cur m = special_cmd c.
  Proof.
    intros h c m H. unfold queued_start in H. unfold special_cmd.
    destruct (cbody c); cbn in H.
    - destruct (single_line (enc_command K c)); [|discriminate]. injection H as <-. reflexivity.
    - destruct (single_line (enc_command K c)); [|discriminate]. injection H as <-. reflexivity.
    - injection H as <-. reflexivity.
  Qed.

  Lemma next_specials : forall s s' r, cs_next K s = (s', r) -> r <> CsPanic ->
    specials s' = specials s.
  Proof.
    intros [q [m|]] s' r H N; unfold cs_next in H; cbn in H.
    - now apply progress_specials in H.
    - destruct q as [|[h c] q]; [injection H as <- _; reflexivity|].
      destruct (queued_start K h c) as [m|] eqn:S; [|injection H as _ <-; contradiction].
      apply progress_specials in H. apply start_specials in S.
      rewrite H. unfold specials. cbn. now rewrite S.
  Qed.

  Lemma set_current_specials : forall s m, specials (cs_set_current s m) =
    match m with Some m => special_cur m | None => [] end ++
    flat_map (fun x => special_cmd (snd x)) (cs_queue s).
  Proof. reflexivity. Qed.

  (** A response is looked at only when there is nothing to send. *)
  Lemma response_specials : forall c r c' e,
    cs_next K (c_send c) = (c_send c, CsOk None) ->
    client_handle_response c r = (c', IEvent e) ->
    eff (specials (c_send c)) (ClNext (IEvent e)) (specials (c_send c')).
  Proof.
    intros [g [q cur] rc] r c' e Q H. cbn [c_send] in *.
    assert (Z : forall h t, cur <> Some (CmIdle h t IaWaitingForIdleDoneSent)).
    { intros h t ->. unfold cs_next, cs_progress in Q. cbn in Q. discriminate. }
    assert (Y : forall h t x, cur <> Some (CmIdle h t (IaPushingIdleDone x))).
    { intros h t x ->. unfold cs_next, cs_progress in Q. cbn in Q.
      destruct x; discriminate. }
    destruct r as [st|d|qq]; cbn in H.
    - unfold cs_maybe_terminate in H. cbn [cs_current] in H.
      destruct cur as [[h c0 fs act|h ca act|h t act]|].
      + destruct st as [t b|b|co t]; try (injection H as <- <-; now constructor).
        destruct (status_kind_is_bad (sb_kind b) && bytes_eqb t (ctag c0));
          injection H as <- <-; now constructor.
      + destruct st as [t b|b|co t]; try (injection H as <- <-; now constructor).
        destruct (bytes_eqb t (ca_tag ca)); [|injection H as <- <-; now constructor].
        destruct (sb_kind b); injection H as <- <-; destruct act; cbn; constructor.
      + destruct st as [t0 b|b|co t0]; try (injection H as <- <-; now constructor).
        destruct (bytes_eqb t0 t); [|injection H as <- <-; now constructor].
        injection H as <- <-.
        destruct act; cbn; try constructor; [now contradiction (Y h t idle_done)|now contradiction (Z h t)].
      + injection H as <- <-. now constructor.
    - injection H as <- <-. now constructor.
    - unfold cs_literal_continue, cs_authenticate_continue, cs_idle_continue in H.
      destruct cur as [[h c0 fs act|h ca act|h t act]|]; cbn [cs_current] in H.
      + destruct act; cbn in H; try discriminate; injection H as <- <-; now constructor.
      + destruct act; cbn in H; injection H as <- <-; now constructor.
      + destruct act; cbn in H; injection H as <- <-; now constructor.
      + injection H as <- <-. now constructor.
  Qed.

  (** Commands in the queue have not been asked for data, and are not accepted. *)
  Lemma queue_unasked : forall (q : list (handle * command)) sp,
    flat_map (fun x => special_cmd (snd x)) q <> SpAuth true :: sp /\
    flat_map (fun x => special_cmd (snd x)) q <> SpIdle true :: sp.
  Proof.
    induction q as [|[h c] q IH]; intro sp; cbn; [split; discriminate|].
    unfold special_cmd at 1 3. destruct (cbody c); cbn; auto; split; discriminate.
  Qed.

  Lemma set_auth_eff : forall s d s' r, cs_set_authenticate_data K s d = Val (s', r) ->
    eff (specials s) (ClSetAuth d r) (specials s').
  Proof.
    intros [q cur] d s' r H. unfold cs_set_authenticate_data in H. cbn [cs_current] in H.
    destruct cur as [[h c fs act|h ca act|h t act]|].
    - injection H as <- <-. apply ef_no_auth. intro sp. apply queue_unasked.
    - destruct act; try (injection H as <- <-; apply ef_no_auth; discriminate).
      destruct (single_line (enc_authdata K d)); [|discriminate]. cbn in H.
      injection H as <- <-. apply ef_auth.
    - injection H as <- <-. apply ef_no_auth. intro sp.
      destruct act; try discriminate; apply queue_unasked.
    - injection H as <- <-. apply ef_no_auth. intro sp. apply queue_unasked.
  Qed.

  Lemma set_done_eff : forall s s' r, cs_set_idle_done K s = Val (s', r) ->
    eff (specials s) (ClSetDone r) (specials s').
  Proof.
    intros [q cur] s' r H. unfold cs_set_idle_done in H. cbn [cs_current] in H.
    destruct cur as [[h c fs act|h ca act|h t act]|].
    - injection H as <- <-. apply ef_no_done. intro sp. apply queue_unasked.
    - injection H as <- <-. apply ef_no_done. intro sp. destruct act; discriminate.
    - destruct act; try (injection H as <- <-; apply ef_no_done; try discriminate;
        intro sp; apply queue_unasked).
      destruct (single_line (enc_idledone K)); [|discriminate]. cbn in H.
      injection H as <- <-. apply ef_done.
    - injection H as <- <-. apply ef_no_done. intro sp. apply queue_unasked.
  Qed.

  Lemma astep_effs : forall relaxed a l a', astep K relaxed a l a' ->
    effs (specials (a_send a)) l (specials (a_send a')).
  Proof.
    intros relaxed a l a' H. destruct H; cbn [a_send a_set_send a_set_buf].
    - apply effs_one. unfold cs_enqueue_command, specials. cbn.
      rewrite flat_map_app, app_assoc. cbn. rewrite app_nil_r. apply ef_enqueue.
    - apply effs_one, ef_input.
    - apply effs_one. now apply set_auth_eff.
    - apply effs_one. now apply set_done_eff.
    - apply next_specials in H0; [|discriminate]. rewrite H0. constructor.
    - apply next_specials in H0; [|discriminate]. rewrite H0. apply effs_one.
      apply ef_event. destruct e; reflexivity.
    - apply next_specials in H0; [|discriminate]. rewrite H0. apply effs_one.
      apply ef_result. discriminate.
    - apply effs_one, ef_result. discriminate.
    - econstructor; [apply ef_rx|]. apply effs_one. now apply ef_event.
    - apply effs_one. unfold cs_literal_continue in H3.
      destruct (a_send a) as [qu [[h c fs []|h ca act|h t act]|]]; cbn in H3;
        try discriminate; injection H3 as <-. apply ef_rx.
    - econstructor; [apply ef_rx|]. apply effs_one.
      apply (response_specials (ClientSt (a_gen a) (a_send a) (CrResponse (fresh relaxed None rest))) m c' e);
        auto.
    - econstructor; [apply ef_rx|]. apply effs_one. apply ef_result. discriminate.
  Qed.

  Lemma asteps_effs : forall relaxed a l a', asteps K relaxed a l a' ->
    effs (specials (a_send a)) l (specials (a_send a')).
  Proof.
    intros relaxed a l a' H. induction H as [a|a l a1 l1 a2 H IH H1]; [constructor|].
    eapply effs_app; [exact IH|]. eapply astep_effs; eauto.
  Qed.

  (** The greeting comes first, and once. *)
  Definition greet_step (b : bool) (e : clog) : bool :=
    match e with ClNext (IEvent (CeGreetingReceived _)) => true | _ => b end.
  Definition greets (b : bool) (e : clog) : Prop :=
    match e with
    | ClNext (IEvent (CeGreetingReceived _)) => b = false
    | ClNext (IEvent _) | ClNext (IOutput _) => b = true
    | _ => True
    end.
  Fixpoint greet (b : bool) (l : list clog) : Prop :=
    match l with
    | [] => True
    | e :: l' => greets b e /\ greet (greet_step b e) l'
    end.

  Lemma greet_app : forall l1 l2 b, greet b l1 -> greet (fold_left greet_step l1 b) l2 ->
    greet b (l1 ++ l2).
  Proof. induction l1 as [|e l1 IH]; cbn; intros l2 b H1 H2; [exact H2|]. destruct H1; auto. Qed.

  Lemma handled_event : forall c r c' e, client_handle_response c r = (c', IEvent e) ->
    forall b, greets b (ClNext (IEvent e)) <-> b = true.
  Proof.
    intros c r c' e H b.
    assert (N : forall g, e <> CeGreetingReceived g).
    { intros g ->. unfold client_handle_response in H.
      repeat match type of H with
        | context [match ?x with _ => _ end] => destruct x
        end; discriminate. }
    destruct e; cbn; try tauto. now contradiction (N g).
  Qed.

  Lemma astep_greet : forall relaxed a l a', astep K relaxed a l a' ->
    greet (a_greeted a) l /\ a_greeted a' = fold_left greet_step l (a_greeted a).
  Proof.
    intros relaxed a l a' H. destruct H; cbn; auto.
    - destruct e; cbn; auto.
    - pose proof (handled_event _ _ _ _ H3 (a_greeted a)) as G.
      split; [repeat split; now apply G|]. rewrite H.
      destruct e; auto.
  Qed.

  Lemma asteps_greet : forall relaxed a l a', asteps K relaxed a l a' ->
    greet (a_greeted a) l /\ a_greeted a' = fold_left greet_step l (a_greeted a).
  Proof.
    intros relaxed a l a' H. induction H as [a|a l a1 l1 a2 H IH H1]; [cbn; auto|].
    destruct IH as [I1 I2]. apply astep_greet in H1 as [G1 G2].
    rewrite fold_left_app, <- I2. split; [|exact G2]. apply greet_app; [exact I1|]. now rewrite <- I2.
  Qed.

  (** [c] is a reachable state; [b]: the greeting was received. *)
  Definition cgood (relaxed : bool) (c : client) (b : bool) : Prop :=
    exists a, crel K relaxed c a /\ a_greeted a = b.

  Lemma cgood_new : forall relaxed g, cgood relaxed (client_new g relaxed) false.
  Proof. intros relaxed g. eexists. split; [apply crel_new|reflexivity]. Qed.

  Lemma cgood_step : forall relaxed c b p c' l, cgood relaxed c b -> client_step K c p = (Some c', l) ->
    cgood relaxed c' (fold_left greet_step l b) /\ greet b l /\
    effs (specials (c_send c)) l (specials (c_send c')).
  Proof.
    intros relaxed c b p c' l (a & R & <-) E.
    destruct (client_step_sim K relaxed c a p c' l R E) as (a' & S & R').
    pose proof (asteps_greet _ _ _ _ S) as [G1 G2].
    split; [exists a'; auto|]. split; [exact G1|].
    destruct R as (_ & -> & _). destruct R' as (_ & -> & _).
    eapply asteps_effs; eauto.
  Qed.
End ClientSpecials.
