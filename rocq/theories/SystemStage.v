(** Stages of the exchange between client and server. *)
From Coq Require Import List NArith Bool PeanoNat Lia ZifyBool ZifyNat ZifyN.
From Verif Require Import Base Types Codec Handle Receive ServerSend ClientSend Client Server
  SpecFraming SpecClient SpecServer ReceiveProofs ClientRecv ServerRecv ClientAbs ServerAbs
  System SystemAbs SpecSystem SystemLog SystemPos SystemResp.
From Verif Require ClientInv ServerInv.
Import ListNotations.

(** What the server makes of a request, without the frame. *)
Definition understood (K : Codecs) (o : soptions) (v : sverdict) (q : request) : Prop :=
  match v, q with
  | SvCommand c, RqCommand c' => c = c' /\ lits_fit o (enc_command K c)
  | SvLiteralTooLong i, RqCommand c =>
      exists pre d post, enc_command K c = pre ++ FLiteral d LSync :: post /\
        lits_fit o pre /\ (so_max_literal_size o < N.of_nat (length d))%N /\
        i = CmdLit (ctag c) (N.of_nat (length d)) LSync
  | SvAuthData d, RqData d' => d = d'
  | SvIdleDone, RqDone => True
  | _, _ => False
  end.

Section Stage.
  Variable K : Codecs.
  Variable o : soptions.

  Definition reg (q : request) : Prop :=
    match q with RqCommand c => regular c | _ => False end.

  (** No AUTHENTICATE or IDLE command is waiting for an answer. *)
  Definition free (mode : expected) (items : list request) : Prop :=
    (mode = ExCommand /\ Forall reg items) \/
    (mode = ExIdleDone /\ exists its, items = RqDone :: its /\ Forall reg its).

  (** The server has not yet read [c], the last command. *)
  Definition opening (mode : expected) (items : list request) (c : command) : Prop :=
    exists its, items = its ++ [RqCommand c] /\ free mode its.

  Definition limbo (act : command_activity) (lit : bytes) : Prop :=
    act = CaWaitingForFragmentsSent (Some lit) \/ act = CaWaitingForLiteralAccepted lit.

  Definition auth_sent (act : authenticate_activity) : Prop :=
    act = AaWaitingForAuthenticateSent \/ act = AaWaitingForAuthenticateResponse.
  Definition auth_waits (act : authenticate_activity) : Prop :=
    auth_sent act \/ act = AaWaitingForAuthenticateDataSent.
  Definition idle_waits (act : idle_activity) : Prop :=
    act = IaWaitingForIdleSent \/ act = IaWaitingForIdleResponse.

  Definition idle_cmd (t : tag) : command := {| ctag := t; cbody := BIdle |}.

  (** [stage aw op cur R mode items G cs]: [aw]: data for AUTHENTICATE are awaited; [op]: tag
      of the last AUTHENTICATE or IDLE received; [cur]: current message of the client; [R]:
      what it still has to output; [mode]: what the server expects; [items]: requests not
      read completely by the server; [G]: what is under way to the server; [cs]: messages
      under way to the client that concern [cur]. *)
  Inductive stage (aw : bool) (op : option tag)
    : option current_message -> list fragment -> expected -> list request -> list fragment ->
      list smsg -> Prop :=
  | sg_none : forall mode items G, free mode items -> stage aw op None [] mode items G []
  | sg_sent : forall h c fs mode items G,
      regular c -> free mode items ->
      stage aw op (Some (CmCommand h c fs (CaWaitingForFragmentsSent None))) [] mode items G []
  | sg_wait : forall h c fs act lit mode items G cpre,
      regular c -> limbo act lit -> opening mode items c -> G <> [] ->
      enc_command K c = cpre ++ FLiteral lit LSync :: fs ->
      stage aw op (Some (CmCommand h c fs act)) (FLiteral lit LSync :: fs) mode items G []
  | sg_acc : forall h c fs act lit q,
      regular c -> limbo act lit ->
      stage aw op (Some (CmCommand h c fs act)) (FLiteral lit LSync :: fs) ExCommand
        [RqCommand c] [] [SmResponse None (RCcr q)]
  | sg_rej : forall h c fs act lit b,
      regular c -> limbo act lit -> sb_kind b = SkBad ->
      stage aw op (Some (CmCommand h c fs act)) [] ExCommand [] []
        [SmResponse None (RStatus (StTagged (ctag c) b))]
  | sg_push : forall h c fs lit,
      regular c ->
      stage aw op (Some (CmCommand h c fs (CaPushingFragments (Some lit))))
        (FLiteral lit LSync :: fs) ExCommand [RqCommand c] [] []
  | sg_auth_unread : forall h ca act mode items G,
      auth_sent act -> opening mode items (command_of_authenticate ca) ->
      stage aw op (Some (CmAuthenticate h ca act)) [] mode items G []
  | sg_auth_ready : forall h ca act,
      auth_waits act -> aw = false -> op = Some (ca_tag ca) ->
      stage aw op (Some (CmAuthenticate h ca act)) [] ExAuthenticateData [] [] []
  | sg_auth_asked : forall h ca act hh q,
      auth_waits act -> aw = true -> op = Some (ca_tag ca) ->
      stage aw op (Some (CmAuthenticate h ca act)) [] ExAuthenticateData [] []
        [SmResponse (Some hh) (RCcr q)]
  | sg_auth_set : forall h ca,
      aw = true -> op = Some (ca_tag ca) ->
      stage aw op (Some (CmAuthenticate h ca AaWaitingForAuthenticateDataSet)) []
        ExAuthenticateData [] [] []
  | sg_auth_data : forall h ca d line,
      aw = true -> op = Some (ca_tag ca) -> enc_authdata K d = [FLine line] ->
      stage aw op (Some (CmAuthenticate h ca (AaPushingAuthenticateData line))) [FLine line]
        ExAuthenticateData [RqData d] [] []
  | sg_auth_answer : forall h ca act d G,
      auth_waits act -> aw = true -> op = Some (ca_tag ca) ->
      stage aw op (Some (CmAuthenticate h ca act)) [] ExAuthenticateData [RqData d] G []
  | sg_auth_fin : forall h ca act hh b,
      auth_waits act ->
      stage aw op (Some (CmAuthenticate h ca act)) [] ExCommand [] []
        [SmResponse (Some hh) (RStatus (StTagged (ca_tag ca) b))]
  | sg_idle_unread : forall h t act mode items G,
      idle_waits act -> opening mode items (idle_cmd t) ->
      stage aw op (Some (CmIdle h t act)) [] mode items G []
  | sg_idle_read : forall h t act,
      idle_waits act -> op = Some t ->
      stage aw op (Some (CmIdle h t act)) [] ExIdleAccept [] [] []
  | sg_idle_acc : forall h t act hh q,
      idle_waits act -> op = Some t ->
      stage aw op (Some (CmIdle h t act)) [] ExIdleDone [] [] [SmResponse (Some hh) (RCcr q)]
  | sg_idle_set : forall h t,
      op = Some t ->
      stage aw op (Some (CmIdle h t IaWaitingForIdleDoneSet)) [] ExIdleDone [] [] []
  | sg_idle_push : forall h t line,
      op = Some t -> enc_idledone K = [FLine line] ->
      stage aw op (Some (CmIdle h t (IaPushingIdleDone line))) [FLine line] ExIdleDone [RqDone] [] []
  | sg_idle_sent : forall h t mode items G,
      free mode items ->
      stage aw op (Some (CmIdle h t IaWaitingForIdleDoneSent)) [] mode items G []
  | sg_idle_rej : forall h t act hh b,
      idle_waits act ->
      stage aw op (Some (CmIdle h t act)) [] ExCommand [] []
        [SmResponse (Some hh) (RStatus (StTagged t b))].

  (** The first request is of the kind that the server expects. *)
  Definition kind_ok (mode : expected) (q : request) : Prop :=
    match mode, q with
    | ExCommand, RqCommand _ => True
    | ExAuthenticateData, RqData _ => True
    | ExIdleDone, RqDone => True
    | _, _ => False
    end.

  Lemma free_kind : forall mode q its, free mode (q :: its) -> kind_ok mode q.
  Proof.
    intros mode q its [[-> H]|(-> & its' & E & H)].
    - inversion H as [|? ? Hq]; subst. destruct q; [exact I|contradiction..].
    - injection E as -> ->. exact I.
  Qed.

  Lemma opening_kind : forall mode q its c, opening mode (q :: its) c -> kind_ok mode q.
  Proof.
    intros mode q its c ([|q' its'] & E & H); injection E as -> ->.
    - destruct H as [[-> _]|(-> & its & E & _)]; [exact I|discriminate].
    - eapply free_kind; eauto.
  Qed.

  Lemma stage_kind : forall aw op cur R mode q its G cs,
    stage aw op cur R mode (q :: its) G cs -> kind_ok mode q.
  Proof.
    intros aw op cur R mode q its G cs H. inversion H; subst; try exact I;
      eauto using free_kind, opening_kind.
  Qed.

  Lemma free_read : forall mode q its v,
    free mode (q :: its) -> understood K o v q -> (forall i, v <> SvLiteralTooLong i) ->
    free (mode_after mode v) its.
  Proof.
    intros mode q its v [[-> H]|(-> & its' & E & H)] Hu Hv.
    - inversion H as [|? ? Hq Hi]; subst. destruct q as [c| |]; try contradiction.
      destruct v; cbn in Hu; try contradiction.
      + destruct Hu as [-> _]. cbn. destruct Hq as [p ->]. left. auto.
      + exfalso. eapply Hv; reflexivity.
    - injection E as -> ->. destruct v; cbn in Hu; try contradiction. cbn. left. auto.
  Qed.

  Lemma opening_read : forall mode q its c v,
    opening mode (q :: its) c -> its <> [] -> understood K o v q ->
    (forall i, v <> SvLiteralTooLong i) -> opening (mode_after mode v) its c.
  Proof.
    intros mode q its c v ([|q' its'] & E & H) Hne Hu Hv; injection E as -> ->; [congruence|].
    exists its'. split; [reflexivity|]. eapply free_read; eauto.
  Qed.

  Lemma opening_single : forall mode q c, opening mode [q] c -> q = RqCommand c /\ mode = ExCommand.
  Proof.
    intros mode q c ([|q' its'] & E & H).
    - injection E as ->. destruct H as [[-> _]|(_ & its & E & _)]; [auto|discriminate].
    - destruct its'; discriminate.
  Qed.

  Definition read_effect (aw : bool) (op : option tag) (v : sverdict) : bool * option tag :=
    match v with
    | SvCommand c =>
        match cbody c with
        | BAuthenticate _ _ => (false, Some (ctag c))
        | BIdle => (aw, Some (ctag c))
        | BOther _ => (aw, op)
        end
    | SvAuthData _ => (false, op)
    | _ => (aw, op)
    end.

  Lemma item_frags_line : forall q its, Forall (rq_ok K o) (q :: its) ->
    exists x fs, item_frags K (q :: its) = FLine x :: fs.
  Proof.
    intros q its H. inversion H as [|? ? Hq _]; subst.
    destruct (rq_frags_line K o q Hq) as (x & fs & E & _).
    unfold item_frags. cbn. rewrite E. cbn. eauto.
  Qed.

  (** The server reads a request completely. *)
  Lemma stage_read : forall aw op cur R mode q its G G' cs v,
    stage aw op cur R mode (q :: its) G cs -> G <> [] ->
    item_frags K its = G' ++ R -> Forall (rq_ok K o) its ->
    understood K o v q -> (forall i, v <> SvLiteralTooLong i) ->
    cs = [] /\
    stage (fst (read_effect aw op v)) (snd (read_effect aw op v)) cur R (mode_after mode v) its G' [].
  Proof.
    intros aw op cur R mode q its G G' cs v H HG E Hok Hu Hv.
    inversion H as
      [mode' items' G0 Hf
      |h c fs mode' items' G0 Hc Hf
      |h c fs act lit mode' items' G0 cpre Hc Hl Hop HG0 Hcp
      |h c fs act lit qq Hc Hl
      |
      |h c fs lit Hc
      |h ca act mode' items' G0 Ha Hop
      | | |
      |h ca d line Haw Hoo He
      |h ca act d G0 Ha Haw Hoo
      |
      |h t act mode' items' G0 Ha Hop
      | | |
      |h t line Hoo He
      |h t mode' items' G0 Hf
      |]; subst; try congruence; split; try reflexivity.
    - constructor. eapply free_read; eauto.
    - constructor; auto. eapply free_read; eauto.
    - (* wait *)
      assert (Hne : its <> []).
      { intros ->. unfold item_frags in E. cbn in E. destruct G'; discriminate. }
      econstructor; eauto.
      + eapply opening_read; eauto.
      + intros ->. destruct its as [|q0 its]; [congruence|].
        destruct (item_frags_line _ _ Hok) as (x & fs' & Ex). rewrite Ex in E. discriminate.
    - (* auth unread *)
      destruct its as [|q0 its].
      + destruct (opening_single _ _ _ Hop) as [-> ->].
        unfold item_frags in E. cbn in E. destruct G'; [|discriminate].
        destruct v; cbn in Hu; try contradiction.
        * destruct Hu as [-> _]. cbn. apply sg_auth_ready; auto. now left.
        * exfalso. eapply Hv; reflexivity.
      + assert (Hne : q0 :: its <> []) by discriminate.
        constructor; auto. eapply opening_read; eauto.
    - (* auth answer *)
      destruct v; cbn in Hu; try contradiction. cbn.
      unfold item_frags in E. cbn in E. destruct G'; [|discriminate].
      apply sg_auth_ready; auto.
    - (* idle unread *)
      destruct its as [|q0 its].
      + destruct (opening_single _ _ _ Hop) as [-> ->].
        unfold item_frags in E. cbn in E. destruct G'; [|discriminate].
        destruct v; cbn in Hu; try contradiction.
        * destruct Hu as [-> _]. cbn. apply sg_idle_read; auto.
        * exfalso. eapply Hv; reflexivity.
      + assert (Hne : q0 :: its <> []) by discriminate.
        constructor; auto. eapply opening_read; eauto.
    - apply sg_idle_sent. eapply free_read; eauto.
  Qed.

  (** The server is about to read a synchronizing literal: the client waits for it. *)
  Lemma stage_literal : forall aw op cur R mode c its G cs d post,
    stage aw op cur R mode (RqCommand c :: its) G cs -> G <> [] ->
    R = FLiteral d LSync :: post ++ item_frags K its -> Forall (rq_ok K o) its ->
    cs = [] /\ mode = ExCommand /\ its = [] /\
    exists h fs act, cur = Some (CmCommand h c fs act) /\ regular c /\ limbo act d /\
      R = FLiteral d LSync :: fs.
  Proof.
    intros aw op cur R mode c its G cs d post H HG E Hok. revert E.
    inversion H as
      [mode' items' G0 Hf
      |h c0 fs mode' items' G0 Hc Hf
      |h c0 fs act lit mode' items' G0 cpre Hc Hl Hop HG0 Hcp
      |h c0 fs act lit qq Hc Hl
      |
      |h c0 fs lit Hc
      |h ca act mode' items' G0 Ha Hop
      | | |
      |h ca d0 line Haw Hoo He
      |h ca act d0 G0 Ha Haw Hoo
      |
      |h t act mode' items' G0 Ha Hop
      | | |
      |h t line Hoo He
      |h t mode' items' G0 Hf
      |]; subst; intro E; try congruence.
    split; [reflexivity|]. injection E as -> Efs.
    destruct its as [|q0 its].
    - destruct (opening_single _ _ _ Hop) as [Ec ->]. injection Ec as ->.
      repeat split; auto. exists h, fs, act. auto.
    - exfalso. destruct Hop as ([|q1 its1] & Ei & _); [discriminate|].
      injection Ei as <- Ei. rewrite Ei, item_frags_app in Efs.
      assert (L : length fs = length (post ++ item_frags K its1 ++ item_frags K [RqCommand c0]))
        by now rewrite Efs.
      unfold item_frags at 2 in L. cbn in L. rewrite app_nil_r, Hcp in L.
      rewrite !app_length in L. cbn in L. lia.
  Qed.

  Lemma stage_R : forall aw op cur R mode items G cs, stage aw op cur R mode items G cs ->
    R = [] \/ (exists lit fs, R = FLiteral lit LSync :: fs) \/ (exists line, R = [FLine line]).
  Proof. intros aw op cur R mode items G cs H. destruct H; eauto. Qed.

  (** The server reads on within a request. *)
  Lemma stage_flow : forall aw op cur R mode items G G' cs,
    stage aw op cur R mode items G cs -> G <> [] -> G' <> [] -> stage aw op cur R mode items G' cs.
  Proof.
    intros aw op cur R mode items G G' cs H HG HG'.
    destruct H; try congruence; try (econstructor; eauto; fail).
  Qed.

  Lemma stage_cs : forall aw op cur R mode items G cs,
    stage aw op cur R mode items G cs -> G <> [] -> cs = [].
  Proof. intros aw op cur R mode items G cs H HG. destruct H; congruence. Qed.

  (** *** Messages under way to the client *)

  Definition plain (done : list tag) (m : smsg) : Prop :=
    match m with
    | SmGreeting _ => True
    | SmResponse _ (RData _) => True
    | SmResponse _ (RStatus (StTagged t _)) => In t done
    | SmResponse _ (RStatus _) => True
    | SmResponse _ (RCcr _) => False
    end.

  (** All messages but [cs] do not concern the current command. *)
  Inductive controls (done : list tag) : list smsg -> list smsg -> Prop :=
  | co_nil : controls done [] []
  | co_plain : forall m F cs, plain done m -> controls done F cs -> controls done (m :: F) cs
  | co_ctl : forall m F cs, controls done F cs -> controls done (m :: F) (m :: cs).

  Lemma plain_more : forall done done' m, plain done m -> plain (done ++ done') m.
  Proof.
    intros done done' m H. destruct m as [g|h [[t b|b|c t]|d|q]]; cbn in *; auto.
    apply in_or_app. now left.
  Qed.

  Lemma controls_more : forall done done' F cs, controls done F cs -> controls (done ++ done') F cs.
  Proof.
    intros done done' F cs H. induction H; [constructor|apply co_plain|apply co_ctl]; auto.
    now apply plain_more.
  Qed.

  Lemma controls_app : forall done F cs F' cs',
    controls done F cs -> controls done F' cs' -> controls done (F ++ F') (cs ++ cs').
  Proof.
    intros done F cs F' cs' H H'. induction H; cbn; [assumption|apply co_plain|apply co_ctl]; auto.
  Qed.

  Lemma controls_plain : forall done m, plain done m -> controls done [m] [].
  Proof. intros. apply co_plain; [assumption|constructor]. Qed.

  Lemma controls_ctl : forall done m, controls done [m] [m].
  Proof. intros. apply co_ctl. constructor. Qed.

  (** *** The current command *)

  Definition cm_tag (m : current_message) : tag :=
    match m with
    | CmCommand _ c _ _ => ctag c
    | CmAuthenticate _ ca _ => ca_tag ca
    | CmIdle _ t _ => t
    end.

  (** The client still waits for the server, or has something to send. *)
  Definition unfinished (m : current_message) : Prop :=
    match m with
    | CmCommand _ _ _ (CaWaitingForFragmentsSent None) => False
    | CmIdle _ _ IaWaitingForIdleDoneSent => False
    | _ => True
    end.

  Lemma cur_cmd_tag : forall m h c, ClientInv.cur_cmd (Some m) = [(h, c)] -> cm_tag m = ctag c.
  Proof.
    intros m h c E. destruct m as [h' c' fs act|h' ca act|h' t act]; cbn in E;
      injection E as _ <-; reflexivity.
  Qed.

  (** *** All requests are encoded as the decoders expect *)

  Lemma in_segment : forall l k e, In e (segment k l) -> In e l.
  Proof.
    induction l as [|e0 l IH]; intros k e H; [exact H|]. cbn in H.
    destruct (ends_segment e0); destruct k as [|k];
      [|right; eapply IH; eauto| |right; eapply IH; eauto].
    - destruct H as [H|[]]. now left.
    - destruct H as [H|H]; [now left|right; eapply IH; eauto].
  Qed.

  Lemma answers_data : forall l d, In (RqData d) (answers (exchange l)) ->
    exists h, In (ClSetAuth d (inl h)) l.
  Proof.
    induction l as [|e l IH]; intros d H; [contradiction|].
    assert (Rest : In (RqData d) (answers (exchange l)) -> exists h, In (ClSetAuth d (inl h)) (e :: l)).
    { intro H0. destruct (IH d H0) as [h Hh]. exists h. now right. }
    destruct e as [| |d0 [h|]|[h|]| |[[]| | | | | |]|]; cbn in H; auto;
      destruct H as [H|H]; auto; try discriminate.
    injection H as ->. exists h. now left.
  Qed.

  Lemma answers_done : forall l, In RqDone (answers (exchange l)) ->
    exists h, In (ClSetDone (Some h)) l.
  Proof.
    induction l as [|e l IH]; intros H; [contradiction|].
    assert (Rest : In RqDone (answers (exchange l)) -> exists h, In (ClSetDone (Some h)) (e :: l)).
    { intro H0. destruct (IH H0) as [h Hh]. exists h. now right. }
    destruct e as [| |d0 [h|]|[h|]| |[[]| | | | | |]|]; cbn in H; auto;
      destruct H as [H|H]; auto; try discriminate.
    exists h. now left.
  Qed.

  Lemma answers_cmd : forall xs c, ~ In (RqCommand c) (answers xs).
  Proof.
    induction xs as [|e xs IH]; intros c H; [exact H|].
    destruct e; cbn in H; try (now apply IH in H);
      destruct H as [H|H]; try discriminate; now apply IH in H.
  Qed.

  Lemma started_ok : forall relaxed gr l cur, orderly K relaxed o gr l ->
    Forall (rq_ok K o) (started cur (clogs l)).
  Proof.
    intros relaxed gr l cur Ho. apply Forall_forall. intros q Hq.
    assert (Hs : exists k, In q (segment_requests (clogs l) k)).
    { unfold started in Hq. apply in_app_or in Hq as [Hq|Hq].
      - unfold resolved_requests in Hq. apply in_flat_map in Hq as (k & _ & Hq). eauto.
      - destruct cur; [eauto|contradiction]. }
    destruct Hs as [k Hk]. unfold segment_requests in Hk.
    destruct (nth_error (enqueued (clogs l)) k) as [[h c]|] eqn:E; [|contradiction].
    destruct Hk as [<-|Hk].
    - cbn. apply (or_cmds _ _ _ _ _ Ho h). eapply nth_error_In; eauto.
    - destruct q as [c'|d|].
      + now apply answers_cmd in Hk.
      + apply answers_data in Hk as [h' Hh]. apply in_segment in Hh. cbn.
        apply (or_data _ _ _ _ _ Ho d h' Hh).
      + apply answers_done in Hk as [h' Hh]. apply in_segment in Hh. cbn.
        apply (or_done _ _ _ _ _ Ho h' Hh).
  Qed.
End Stage.
