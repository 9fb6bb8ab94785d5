(** Properties of a client connected to a server (C28-C30, C40). Vocabulary: SpecSystem.v.
    [yran K relaxed gc gs o gr acts y l]: the calls and deliveries [acts] end in state [y]
    with the log [l] of both sides. [orderly K relaxed o gr l]: the assumptions about what
    occurs in [l]; each of them is needed, see the refutations. *)
From Coq Require Import List NArith Bool PeanoNat.
From Coq Require String.
Import (notations) String.
From Verif Require Import Base Types Codec Handle Receive ServerSend ClientSend Client Server
  SpecFraming SpecClient SpecServer System SpecSystem ToyCodec ToyLaws ClientExamples
  ServerExamples SystemExamples SystemRefute SystemResp SystemThms.
Import ListNotations.
Open Scope list_scope.
Open Scope nat_scope.

(** ** C28 *)

(** What the server takes from its input are the requests of the client, in order and
    complete; a command with a synchronizing literal that exceeds the limit is taken up to
    this literal, and rejected. For everything it takes the server makes one report. *)
Theorem C28_requests : forall K relaxed o gc gs gr acts y l,
  yran K relaxed gc gs o gr acts y l -> orderly K relaxed o gr l ->
  (exists rd rest, requests (clogs l) = rd ++ rest /\
     Forall2 (read_as K o) (staken (slogs l)) rd) /\
  sreports (slogs l) = map (fun p => sresult (fst p) (snd p)) (staken (slogs l)) /\
  (exists rest, map snd (enqueued (clogs l)) = cmds (requests (clogs l)) ++ rest).
Proof.
  intros K relaxed o gc gs gr acts y l R O. split; [|split].
  - exact (read_prefix K relaxed o gc gs gr acts y l R O).
  - exact (sreports_taken K relaxed o gc gs gr acts y l R).
  - exact (requests_cmds K relaxed o gc gs gr acts y l R O).
Qed.
Print Assumptions C28_requests.

(** When nothing more can happen without the applications, the server has read them all. *)
Theorem C28_requests_all : forall K relaxed o gc gs gr acts y l,
  yran K relaxed gc gs o gr acts y l -> orderly K relaxed o gr l -> waiting K y ->
  Forall2 (read_as K o) (staken (slogs l)) (requests (clogs l)).
Proof. exact read_all. Qed.
Print Assumptions C28_requests_all.

(** If no literal exceeds the limit, the reports are one event per request. *)
Theorem C28_delivered : forall K relaxed o gc gs gr acts y l,
  yran K relaxed gc gs o gr acts y l -> orderly K relaxed o gr l ->
  (forall h c, In (h, c) (enqueued (clogs l)) -> lits_fit o (enc_command K c)) ->
  exists rd rest, requests (clogs l) = rd ++ rest /\
    sreports (slogs l) = map (fun q => IEvent (request_event q)) rd.
Proof. exact delivered_prefix. Qed.
Print Assumptions C28_delivered.

Theorem C28_delivered_all : forall K relaxed o gc gs gr acts y l,
  yran K relaxed gc gs o gr acts y l -> orderly K relaxed o gr l ->
  (forall h c, In (h, c) (enqueued (clogs l)) -> lits_fit o (enc_command K c)) ->
  waiting K y ->
  sreports (slogs l) = map (fun q => IEvent (request_event q)) (requests (clogs l)).
Proof. exact delivered_all. Qed.
Print Assumptions C28_delivered_all.

(** The conversation [acts_done] meets all assumptions, and ends with both sides waiting. *)
Example C28_example :
  let l := yx_log y_opts acts_done in
  yran toy false ex_gen ygen_s y_opts ex_greeting acts_done (yx_sys y_opts acts_done) l /\
  orderly toy false y_opts ex_greeting l /\
  waiting toy (yx_sys y_opts acts_done) /\ waiting_twice toy (yx_sys y_opts acts_done) /\
  requests (clogs l) =
    [RqCommand ex_login; RqCommand ex_append; RqCommand ex_auth; RqData (ADContinue (B "secret"));
     RqCommand ex_idle; RqDone] /\
  sreports (slogs l) =
    [IEvent (SeCommandReceived ex_login); IError (SerrLiteralTooLong (ln "A5 APPEND {11}"));
     IEvent (SeCommandAuthenticateReceived ex_ca);
     IEvent (SeAuthenticateDataReceived (ADContinue (B "secret")));
     IEvent (SeIdleCommandReceived (B "A4")); IEvent SeIdleDoneReceived].
Proof.
  split; [vm_compute; reflexivity|]. split; [exact talk_orderly|].
  assert (W : waiting toy (yx_sys y_opts acts_done)).
  { split; [vm_compute; reflexivity|]. split; [vm_compute; reflexivity|].
    split; eexists; vm_compute; reflexivity. }
  split; [exact W|]. split; [split; [exact W|]; eexists; eexists; split; vm_compute; reflexivity|].
  split; vm_compute; reflexivity.
Qed.

(** No literal of the conversation [acts_first] exceeds the limit. *)
Example C28_delivered_example :
  let l := yx_log y_opts acts_first in
  yran toy false ex_gen ygen_s y_opts ex_greeting acts_first (yx_sys y_opts acts_first) l /\
  orderly toy false y_opts ex_greeting l /\
  (forall h c, In (h, c) (enqueued (clogs l)) -> lits_fit y_opts (enc_command toy c)) /\
  waiting toy (yx_sys y_opts acts_first) /\
  sreports (slogs l) = [IEvent (SeCommandReceived ex_login)].
Proof.
  split; [vm_compute; reflexivity|]. split; [exact first_orderly|]. split; [|split].
  - assert (E : enqueued (clogs (yx_log y_opts acts_first)) = [(hd_ 0, ex_login)]) by (vm_compute; reflexivity).
    rewrite E. intros h c [H|[]]. injection H as _ <-. unfold lits_fit.
    repeat apply Forall_cons; try apply Forall_nil; try exact I; vm_compute; discriminate.
  - split; [vm_compute; reflexivity|]. split; [vm_compute; reflexivity|].
    split; eexists; vm_compute; reflexivity.
  - vm_compute; reflexivity.
Qed.

(** Two commands have the same tag. The server receives a command that was never enqueued:
    the literal of the second command is missing, the third command stands in its place. *)
Theorem C28_tags_refuted : let l := yx_log y_opts acts_tags in
  ran_ok y_opts acts_tags /\ msgs_ok y_opts l /\ cmds_ok l /\ fits_ok y_opts l /\ polite (slogs l) /\
  foreign l ex_mixed.
Proof. exact tags_facts. Qed.
Print Assumptions C28_tags_refuted.

(** The same when the server's application sends a status before the command was received. *)
Theorem C28_early_refuted : let l := yx_log y_opts acts_early in
  ran_ok y_opts acts_early /\ msgs_ok y_opts l /\ cmds_ok l /\ fits_ok y_opts l /\ tags_ok l /\
  foreign l ex_mixed.
Proof. exact early_facts. Qed.
Print Assumptions C28_early_refuted.

(** ** C29 *)

(** When nothing more can happen without the applications, the client does not wait for the
    acceptance of a literal, and every command except AUTHENTICATE and IDLE is resolved. *)
Theorem C29_no_literal_wait : forall K relaxed o gc gs gr acts y l,
  yran K relaxed gc gs o gr acts y l -> orderly K relaxed o gr l -> waiting K y ->
  (forall c, client_next K (y_client y) = (c, [], INeedMore) ->
     forall h cmd fs act, cs_current (c_send c) <> Some (CmCommand h cmd fs act)) /\
  (forall h cmd, oldest (clogs l) = Some (h, cmd) -> ~ regular cmd).
Proof.
  intros K relaxed o gc gs gr acts y l R O W. split.
  - exact (no_literal_wait K relaxed o gc gs gr acts y l R O W).
  - exact (oldest_not_regular K relaxed o gc gs gr acts y l R O W).
Qed.
Print Assumptions C29_no_literal_wait.

(** AUTHENTICATE and IDLE are not stuck either: if such a command is not resolved, then the
    calls by which one of the two applications answers it succeed. *)
Theorem C29_turn : forall K relaxed o gc gs gr acts y l,
  yran K relaxed gc gs o gr acts y l -> orderly K relaxed o gr l -> waiting_twice K y ->
  forall c, client_next K (y_client y) = (c, [], INeedMore) ->
  forall h cmd, oldest (clogs l) = Some (h, cmd) -> turn K (slogs l) c (y_server y) cmd.
Proof. exact whose_turn. Qed.
Print Assumptions C29_turn.

(** In [acts_talk] it is the turn of the client to end IDLE. *)
Example C29_example :
  let l := yx_log y_opts acts_talk in
  yran toy false ex_gen ygen_s y_opts ex_greeting acts_talk (yx_sys y_opts acts_talk) l /\
  orderly toy false y_opts ex_greeting l /\ waiting_twice toy (yx_sys y_opts acts_talk) /\
  oldest (clogs l) = Some (hd_ 3, ex_idle).
Proof.
  split; [vm_compute; reflexivity|]. split; [exact talk_prefix_orderly|].
  split; [|vm_compute; reflexivity].
  split; [split; [vm_compute; reflexivity|]; split; [vm_compute; reflexivity|];
    split; eexists; vm_compute; reflexivity|].
  eexists; eexists; split; vm_compute; reflexivity.
Qed.

(** The line that announces a synchronizing literal exceeds the size limit for commands: the
    server discards it without an answer, and the client waits forever. *)
Theorem C29_size_refuted : let l := yx_log y_tiny acts_hang in
  ran_ok y_tiny acts_hang /\ msgs_ok y_tiny l /\ cmds_ok l /\ tags_ok l /\ polite (slogs l) /\
  waiting_twice toy (yx_sys y_tiny acts_hang) /\ oldest (clogs l) = Some (hd_ 0, ex_hang).
Proof. exact hang_facts. Qed.
Print Assumptions C29_size_refuted.

(** ** C30 *)

(** The client reads what the server has output, in order and unchanged. The only assumption
    is that the decoder inverts the encoder for these messages. *)
Theorem C30_received : forall K relaxed o gc gs gr acts y l,
  yran K relaxed gc gs o gr acts y l ->
  (forall m, In m (scheduled o gr (slogs l)) -> msg_roundtrips K relaxed m) ->
  (exists rest, map msg_verdict (sent o gr (slogs l)) = received (clogs l) ++ rest) /\
  (waiting K y -> received (clogs l) = map msg_verdict (sent o gr (slogs l))) /\
  (waiting_twice K y -> received (clogs l) = map msg_verdict (scheduled o gr (slogs l))).
Proof.
  intros K relaxed o gc gs gr acts y l R L. split; [|split].
  - exact (resp_prefix K relaxed o gc gs gr acts y l R L).
  - exact (resp_waiting K relaxed o gc gs gr acts y l R L).
  - exact (resp_waiting_twice K relaxed o gc gs gr acts y l R L).
Qed.
Print Assumptions C30_received.

(** The application of the client is told all of them, except the greeting and the
    continuation requests by which the server itself accepts literals. *)
Theorem C30_reported : forall K relaxed o gc gs gr acts y l,
  yran K relaxed gc gs o gr acts y l -> orderly K relaxed o gr l ->
  (exists rest, visible (sent o gr (slogs l)) = reported_all (events (clogs l)) ++ rest) /\
  (waiting K y -> reported_all (events (clogs l)) = visible (sent o gr (slogs l))) /\
  (waiting_twice K y -> reported_all (events (clogs l)) = visible (scheduled o gr (slogs l))).
Proof.
  intros K relaxed o gc gs gr acts y l R O. split; [|split].
  - exact (reported_prefix K relaxed o gc gs gr acts y l R O).
  - exact (reported_waiting K relaxed o gc gs gr acts y l R O).
  - exact (reported_waiting_twice K relaxed o gc gs gr acts y l R O).
Qed.
Print Assumptions C30_reported.

(** The responses of [acts_done]: a literal made of line ends arrives unchanged. *)
Example C30_example : let l := yx_log y_opts acts_done in
  reported_all (events (clogs l)) =
    [RStatus (StTagged (B "A5") (StatusBody SkBad None (B "too long"))); ex_fetch; ex_ok "A2";
     RCcr (CcrBasic None (B "data?")); RStatus (StTagged (B "A3") (StatusBody SkOk None (B "in")));
     RCcr (CcrBasic None (B "idling")); ex_ok "A4"].
Proof. vm_compute. reflexivity. Qed.

(** An enqueued continuation request that nothing calls for is taken for the acceptance of a
    literal, and the application of the client is not told. (The client then sends the
    literal that the server rejects; see C40.) *)
Theorem C30_polite_refuted : let l := yx_log y_opts acts_bait_end in
  ran_ok y_opts acts_bait_end /\ msgs_ok y_opts l /\ cmds_ok l /\ fits_ok y_opts l /\ tags_ok l /\
  waiting_twice toy (yx_sys y_opts acts_bait_end) /\
  reported_all (events (clogs l)) =
    [RStatus (StTagged (B "A1") (StatusBody SkBad None (B "too long")))] /\
  visible (scheduled y_opts ex_greeting (slogs l)) =
    [RCcr (CcrBasic None (B "idle")); RStatus (StTagged (B "A1") (StatusBody SkBad None (B "too long")))].
Proof.
  destruct bait_facts as (H1 & H2 & H3 & H4 & H5 & _ & H6 & H7 & H8).
  exact (conj H1 (conj H2 (conj H3 (conj H4 (conj H5 (conj H6 (conj H7 H8))))))).
Qed.
Print Assumptions C30_polite_refuted.

(** ** C40 *)

(** Every command that the server reports was enqueued at the client. (C28_requests says
    more: which bytes are taken for which command.) *)
Theorem C40_no_smuggling : forall K relaxed o gc gs gr acts y l,
  yran K relaxed gc gs o gr acts y l -> orderly K relaxed o gr l ->
  forall c, In (IEvent (command_event c)) (sreports (slogs l)) ->
  exists h, In (h, c) (enqueued (clogs l)).
Proof. exact reported_enqueued. Qed.
Print Assumptions C40_no_smuggling.

(** A literal "A9 LOGOUT" that is sent without asking and exceeds the limit for literals. *)
Theorem C40_literal_refuted : let l := yx_log y_opts acts_smuggle in
  ran_ok y_opts acts_smuggle /\ msgs_ok y_opts l /\ cmds_ok l /\ tags_ok l /\ polite (slogs l) /\
  foreign l (cmd "A9" "LOGOUT").
Proof. exact smuggle_facts. Qed.
Print Assumptions C40_literal_refuted.

(** A literal that the limit for literals allows, but which exceeds the limit for commands:
    sent without asking, *)
Theorem C40_cross_refuted : let l := yx_log y_small (acts_cross "19+") in
  ran_ok y_small (acts_cross "19+") /\ msgs_ok y_small l /\ cmds_ok l /\ tags_ok l /\ polite (slogs l) /\
  foreign l (cmd "A9" "LOGOUT").
Proof. exact cross_non_sync_facts. Qed.
Print Assumptions C40_cross_refuted.

(** and with the permission of the server. *)
Theorem C40_cross_sync_refuted : let l := yx_log y_small (acts_cross "19") in
  ran_ok y_small (acts_cross "19") /\ msgs_ok y_small l /\ cmds_ok l /\ tags_ok l /\ polite (slogs l) /\
  foreign l (cmd "9" "LOGOUT").
Proof. exact cross_sync_facts. Qed.
Print Assumptions C40_cross_sync_refuted.

(** The limits are respected, but the application of the server sends a continuation request
    while its server rejects the literal. *)
Theorem C40_polite_refuted : let l := yx_log y_opts acts_bait_end in
  ran_ok y_opts acts_bait_end /\ msgs_ok y_opts l /\ cmds_ok l /\ fits_ok y_opts l /\ tags_ok l /\
  foreign l (cmd "A9" "LOGOUT").
Proof.
  destruct bait_facts as (H1 & H2 & H3 & H4 & H5 & H6 & _).
  exact (conj H1 (conj H2 (conj H3 (conj H4 (conj H5 H6))))).
Qed.
Print Assumptions C40_polite_refuted.
