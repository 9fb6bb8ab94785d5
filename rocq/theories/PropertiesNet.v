(** Properties of a client in a stream connected to a server in a stream (C52-C55).
    Vocabulary: SpecNet.v. [talk relaxed o gc gs gr T1 T2 z L]: a run of a new client and a new
    server in new streams, with or without TLS, ends in [z] with the log [L]. [app_log L]: what
    the two applications did and were told. *)
From Coq Require Import List NArith Bool PeanoNat.
From Coq Require String.
Import (notations) String.
From Verif Require Import Base Types Codec Handle Receive ServerSend ClientSend Client Server
  SpecFraming SpecClient SpecServer System SpecSystem SpecSystemLive ToyCodec ToyLaws
  ClientExamples ServerExamples SystemExamples Stream StreamMachine SpecStream ToyTls
  Net SpecNet NetProofs NetSystem NetRest NetThms NetStall NetLive NetExamples.
From Verif Require RelayTalk RelayEnd.
Import ListNotations.
Open Scope list_scope.
Open Scope nat_scope.

(** ** C52 *)

(** Each side runs as it does alone: all theorems about streams apply to both. *)
Theorem C52_alone : forall T1 T2 M1 M2 fuel s1 m1 s2 m2 acts z L,
  net_run T1 T2 M1 M2 fuel (net_new T1 T2 M1 M2 s1 m1 s2 m2) acts = (z, L) ->
  (exists a1, xrun T1 M1 fuel (XState s1 m1 FIdle) a1 = (n_l z, lefts L)) /\
  (exists a2, xrun T2 M2 fuel (XState s2 m2 FIdle) a2 = (n_r z, rights L)).
Proof. exact net_projects. Qed.
Print Assumptions C52_alone.

(** Without TLS, what one state has output consists of what the other state was given, what
    its stream has buffered, what is under way, and what is not written yet. At every moment
    of the run a state was given only what the other had output before. *)
Theorem C52_plain : forall T1 T2 M1 M2 fuel m1 m2 acts z L,
  net_run T1 T2 M1 M2 fuel
    (net_new T1 T2 M1 M2 (stream_insecure T1) m1 (stream_insecure T2) m2) acts = (z, L) ->
  xoutputs (lefts L) =
    xgiven (rights L) ++ x_rbuf (x_s (n_r z)) ++ n_right z ++ x_wbuf (x_s (n_l z)) /\
  xoutputs (rights L) =
    xgiven (lefts L) ++ x_rbuf (x_s (n_l z)) ++ n_left z ++ x_wbuf (x_s (n_r z)) /\
  causal L.
Proof.
  intros T1 T2 M1 M2 fuel m1 m2 acts z L E.
  destruct (net_plain T1 T2 M1 M2 fuel m1 m2 acts z L E) as [H1 H2].
  split; [exact H1|]. split; [exact H2|]. exact (net_plain_causal T1 T2 M1 M2 fuel m1 m2 acts z L E).
Qed.
Print Assumptions C52_plain.

(** With TLS the same holds for what the sessions encrypt and decrypt, as long as no future
    has returned an error of the socket or of the session. *)
Theorem C52_tls : forall T1 T2 M1 M2 fuel t1 t2 m1 m2 peer1 R1 dec1 peer2 R2 dec2,
  tls_link T1 T2 t1 t2 peer1 R1 dec1 -> tls_link T2 T1 t2 t1 peer2 R2 dec2 ->
  forall acts z L,
  net_run T1 T2 M1 M2 fuel
    (net_new T1 T2 M1 M2 (stream_tls T1 t1) m1 (stream_tls T2 t2) m2) acts = (z, L) ->
  no_error (lefts L) -> no_error (rights L) -> x_f (n_l z) <> FDead -> x_f (n_r z) <> FDead ->
  (xoutputs (lefts L) = peer1 (xread (rights L) ++ n_right z ++ x_wbuf (x_s (n_l z))) /\
   xgiven (rights L) = peer1 (xread (rights L))) /\
  (xoutputs (rights L) = peer2 (xread (lefts L) ++ n_left z ++ x_wbuf (x_s (n_r z))) /\
   xgiven (lefts L) = peer2 (xread (lefts L))) /\
  causal L.
Proof.
  intros T1 T2 M1 M2 fuel t1 t2 m1 m2 peer1 R1 dec1 peer2 R2 dec2 K1 K2 acts z L E N1 N2 D1 D2.
  assert (W : well T1 T2 M1 M2 z L) by (split; [exact N1|split; [exact N2|split; [exact D1|exact D2]]]).
  destruct (net_tls T1 T2 M1 M2 fuel t1 t2 _ _ _ _ _ _ K1 K2 m1 m2 acts z L E W) as (H1 & H2 & H3 & H4).
  split; [split; [exact H1|exact H2]|]. split; [split; [exact H3|exact H4]|].
  exact (net_tls_causal T1 T2 M1 M2 fuel t1 t2 _ _ _ _ _ _ K1 K2 m1 m2 acts z L E W).
Qed.
Print Assumptions C52_tls.

(** Hence for the client and the server the streams are not there: connected directly
    (System.v) they can make the same calls with the same results. *)
Theorem C52_direct : forall K relaxed o gc gs gr T1 T2 z L,
  @talk K relaxed o gc gs gr T1 T2 z L ->
  exists acts y l, yran K relaxed gc gs o gr acts y l /\
    same_talk L (x_m (n_l z)) (x_m (n_r z)) y l.
Proof.
  intros K relaxed o gc gs gr T1 T2 z L Tk.
  destruct (net_direct K relaxed o gc gs gr T1 T2 z L Tk) as (acts & y & l & Y & S & _). eauto.
Qed.
Print Assumptions C52_direct.

(** The conversation [n_script], without TLS and with the toy session. *)
Example C52_example :
  (talk false y_opts ex_gen ygen_s ex_greeting TL TL (n_end n_plain) (n_log n_plain) /\
   xgiven (rights (n_log n_plain)) = xread (rights (n_log n_plain)) /\
   length (xgiven (rights (n_log n_plain))) = 89 /\ length (xgiven (lefts (n_log n_plain))) = 113) /\
  (talk false y_opts ex_gen ygen_s ex_greeting TL TL (n_end n_tls) (n_log n_tls) /\
   tls_link TL TL toy_session_new toy_session_new toy_peer toy_rel toy_dec /\
   length (xread (rights (n_log n_tls))) = 178 /\
   xgiven (rights (n_log n_tls)) = xgiven (rights (n_log n_plain))).
Proof.
  split.
  - split; [exact n_talk_plain|]. vm_compute. auto.
  - split; [exact n_talk_tls|]. split; [apply toy_link|]. vm_compute. auto.
Qed.

(** The session accepts 8 bytes of a command, and [next] returns an error; the application
    continues. The last byte is never sent, the command is reported as sent, and both sides
    wait. *)
Theorem C52_error_refuted :
  at_rest (fst eight_run) /\
  xrets (lefts (snd eight_run)) = [RetEvent (CeGreetingReceived (Greeting GkOk None (B "")) : m_ev CM); RetIo;
    RetEvent (CeCommandSent (hd_ 0) (cmd "A" "NOOPS") : m_ev CM)] /\
  xoutputs (lefts (snd eight_run)) = ln "A NOOPS" /\
  xgiven (rights (snd eight_run)) = B "A NOOPS" ++ [CR] /\
  sreports (slogs (app_log (snd eight_run))) = [].
Proof. exact eight_facts. Qed.
Print Assumptions C52_error_refuted.

(** ** C53, C54 *)

(** The reports to the server's application are about the requests [rd] of the client's
    application, in order: one report for each, and none is changed ([read_as], C28). What
    the client's application is told are responses of the server's application, in order and
    unchanged, and one rejection for each of these requests with a literal that exceeds the
    limit; nothing else. *)
Theorem C53_exchange : forall K relaxed o gc gs gr T1 T2 z L,
  @talk K relaxed o gc gs gr T1 T2 z L ->
  orderly K relaxed o gr (app_log L) -> own_roundtrips K relaxed o (app_log L) ->
  exists took rd rest,
    requests (clogs (app_log L)) = rd ++ rest /\ Forall2 (read_as K o) took rd /\
    sreports (slogs (app_log L)) = map (fun p => sresult (fst p) (snd p)) took /\
    exists ys more, interleaved (given (rights L)) (flat_map (rejection K o) rd) ys /\
      ys = reported_all (events (clogs (app_log L))) ++ more.
Proof. exact net_exchange. Qed.
Print Assumptions C53_exchange.

(** The requests are those of the enqueued commands, in order. *)
Theorem C53_commands : forall K relaxed o gc gs gr T1 T2 z L,
  @talk K relaxed o gc gs gr T1 T2 z L ->
  orderly K relaxed o gr (app_log L) -> own_roundtrips K relaxed o (app_log L) ->
  exists rest, map snd (enqueued (clogs (app_log L))) = cmds (requests (clogs (app_log L))) ++ rest.
Proof. exact net_cmds. Qed.
Print Assumptions C53_commands.

(** If no literal exceeds the limit, the reports are one event per request. *)
Theorem C53_delivered : forall K relaxed o gc gs gr T1 T2 z L,
  @talk K relaxed o gc gs gr T1 T2 z L ->
  orderly K relaxed o gr (app_log L) -> own_roundtrips K relaxed o (app_log L) ->
  (forall h c, In (h, c) (enqueued (clogs (app_log L))) -> lits_fit o (enc_command K c)) ->
  exists rd rest, requests (clogs (app_log L)) = rd ++ rest /\
    sreports (slogs (app_log L)) = map (fun q => IEvent (request_event q)) rd.
Proof. exact net_delivered. Qed.
Print Assumptions C53_delivered.

(** Every command that the server's application is told was enqueued by the client's. *)
Theorem C53_no_smuggling : forall K relaxed o gc gs gr T1 T2 z L,
  @talk K relaxed o gc gs gr T1 T2 z L ->
  orderly K relaxed o gr (app_log L) -> own_roundtrips K relaxed o (app_log L) ->
  forall c, In (IEvent (command_event c)) (sreports (slogs (app_log L))) ->
  exists h, In (h, c) (enqueued (clogs (app_log L))).
Proof. exact net_smuggling. Qed.
Print Assumptions C53_no_smuggling.

(** The greeting is the server's, and reported at most once; nobody is told of a malformed
    message. *)
Theorem C53_greeting : forall K relaxed o gc gs gr T1 T2 z L,
  @talk K relaxed o gc gs gr T1 T2 z L ->
  orderly K relaxed o gr (app_log L) -> own_roundtrips K relaxed o (app_log L) ->
  exists rest, [gr] = greetings (events (clogs (app_log L))) ++ rest.
Proof. exact net_greeted. Qed.
Print Assumptions C53_greeting.

Theorem C53_clean : forall K relaxed o gc gs gr T1 T2 z L,
  @talk K relaxed o gc gs gr T1 T2 z L ->
  orderly K relaxed o gr (app_log L) -> own_roundtrips K relaxed o (app_log L) ->
  (forall e, ~ In (ClNext (IError e)) (clogs (app_log L))) /\
  (forall e, In (SlNext (IError e)) (slogs (app_log L)) -> exists x, e = SerrLiteralTooLong x).
Proof.
  intros K relaxed o gc gs gr T1 T2 z L Tk Ord Own. split.
  - exact (RelayEnd.net_client_clean K relaxed o gc gs gr T1 T2 z L Tk Ord Own).
  - exact (RelayEnd.net_server_clean K relaxed o gc gs gr T1 T2 z L Tk Ord Own).
Qed.
Print Assumptions C53_clean.

(** [n_script] meets the assumptions, without TLS and with it. *)
Example C53_example :
  let l := app_log (n_log n_tls) in
  talk false y_opts ex_gen ygen_s ex_greeting TL TL (n_end n_tls) (n_log n_tls) /\
  l = app_log (n_log n_plain) /\
  orderly toy false y_opts ex_greeting l /\ own_roundtrips toy false y_opts l /\
  requests (clogs l) =
    [RqCommand ex_login; RqCommand ex_append; RqCommand ex_auth; RqData (ADContinue (B "secret"));
     RqCommand ex_idle; RqDone] /\
  flat_map (rejection toy y_opts) (requests (clogs l)) =
    [RStatus (StTagged (B "A5") (StatusBody SkBad None (B "too long")))] /\
  sreports (slogs l) =
    [IEvent (SeCommandReceived ex_login); IError (SerrLiteralTooLong (ln "A5 APPEND {11}"));
     IEvent (SeCommandAuthenticateReceived ex_ca);
     IEvent (SeAuthenticateDataReceived (ADContinue (B "secret")));
     IEvent (SeIdleCommandReceived (B "A4")); IEvent SeIdleDoneReceived] /\
  reported_all (events (clogs l)) =
    [ex_fetch; ex_ok "A2"; RStatus (StTagged (B "A5") (StatusBody SkBad None (B "too long")));
     RCcr (CcrBasic None (B "data?")); RStatus (StTagged (B "A3") (StatusBody SkOk None (B "in")));
     RCcr (CcrBasic None (B "idling")); ex_ok "A4"].
Proof.
  cbv zeta. split; [exact n_talk_tls|]. rewrite n_same. split; [reflexivity|].
  split; [exact n_orderly|]. split; [exact n_own|]. vm_compute. auto.
Qed.

(** When nothing is under way and both sides wait for bytes: all requests have been reported,
    and the client's application was told exactly the responses that were reported as sent to
    the server's application, and the rejections. *)
Theorem C54_rest : forall K relaxed o gc gs gr T1 T2 z L,
  @talk K relaxed o gc gs gr T1 T2 z L ->
  orderly K relaxed o gr (app_log L) -> own_roundtrips K relaxed o (app_log L) -> at_rest z ->
  exists took,
    Forall2 (read_as K o) took (requests (clogs (app_log L))) /\
    sreports (slogs (app_log L)) = map (fun p => sresult (fst p) (snd p)) took /\
    interleaved (told_sent (slogs (app_log L)))
      (flat_map (rejection K o) (requests (clogs (app_log L))))
      (reported_all (events (clogs (app_log L)))).
Proof. exact rest_exchange. Qed.
Print Assumptions C54_rest.

(** The greeting was reported, once. *)
Theorem C54_greeted : forall K relaxed o gc gs gr T1 T2 z L,
  @talk K relaxed o gc gs gr T1 T2 z L ->
  orderly K relaxed o gr (app_log L) -> own_roundtrips K relaxed o (app_log L) -> at_rest z ->
  greetings (events (clogs (app_log L))) = [gr].
Proof. exact rest_greeted. Qed.
Print Assumptions C54_greeted.

Theorem C54_delivered : forall K relaxed o gc gs gr T1 T2 z L,
  @talk K relaxed o gc gs gr T1 T2 z L ->
  orderly K relaxed o gr (app_log L) -> own_roundtrips K relaxed o (app_log L) -> at_rest z ->
  (forall h c, In (h, c) (enqueued (clogs (app_log L))) -> lits_fit o (enc_command K c)) ->
  sreports (slogs (app_log L)) =
    map (fun q => IEvent (request_event q)) (requests (clogs (app_log L))).
Proof. exact rest_delivered. Qed.
Print Assumptions C54_delivered.

(** The only commands that are not resolved wait behind AUTHENTICATE or IDLE. *)
Theorem C54_resolved : forall K relaxed o gc gs gr T1 T2 z L,
  @talk K relaxed o gc gs gr T1 T2 z L ->
  orderly K relaxed o gr (app_log L) -> own_roundtrips K relaxed o (app_log L) -> at_rest z ->
  forall h c, oldest (clogs (app_log L)) = Some (h, c) -> ~ regular c.
Proof. exact rest_oldest. Qed.
Print Assumptions C54_resolved.

(** If no request is rejected because of a literal, all responses that the application of the
    server has enqueued were sent. *)
Theorem C54_told : forall K relaxed o gc gs gr T1 T2 z L,
  @talk K relaxed o gc gs gr T1 T2 z L ->
  orderly K relaxed o gr (app_log L) -> own_roundtrips K relaxed o (app_log L) -> at_rest z ->
  flat_map (rejection K o) (requests (clogs (app_log L))) = [] ->
  told_sent (slogs (app_log L)) = given (rights L).
Proof. exact rest_told. Qed.
Print Assumptions C54_told.

Example C54_example :
  at_rest (n_end n_plain) /\ at_rest (n_end n_tls) /\
  told_sent (slogs (app_log (n_log n_tls))) =
    [ex_fetch; ex_ok "A2";
     RCcr (CcrBasic None (B "data?")); RStatus (StTagged (B "A3") (StatusBody SkOk None (B "in")));
     RCcr (CcrBasic None (B "idling")); ex_ok "A4"].
Proof. split; [unfold at_rest; vm_compute; auto|]. split; [unfold at_rest; vm_compute; auto|]. vm_compute. reflexivity. Qed.

(** [told_sent] cannot be replaced by what the application of the server has enqueued: told
    that a literal was rejected, it enqueues "BYE"; the server sends the rejection, and then
    waits for input, with "BYE" in its queue (see C49). *)
Theorem C54_enqueued_refuted :
  talk false y_opts ex_gen ygen_s ex_greeting TL TL (fst stall_run) (snd stall_run) /\
  at_rest (fst stall_run) /\
  given (rights (snd stall_run)) = [ex_bye] /\
  told_sent (slogs (app_log (snd stall_run))) = [] /\
  reported_all (events (clogs (app_log (snd stall_run)))) =
    [RStatus (StTagged (B "A5") (StatusBody SkBad None (B "too long")))].
Proof. exact stall_facts. Qed.
Print Assumptions C54_enqueued_refuted.

(** ** C55 *)

(** Without TLS: if the applications only call [next] again and again, and the sockets do not
    fail, then only finitely many things happen, in whatever order; *)
Theorem C55_terminates : forall K relaxed o gc gs gr T1 T2 fuel,
  no_trailing K relaxed -> single_lines K -> sno_trailing K o -> (0 < so_max_command_size o)%N ->
  forall acts z L,
  net_run T1 T2 (client_machine K) (server_machine K) fuel
    (net_new T1 T2 (client_machine K) (server_machine K) (stream_insecure T1) (client_new gc relaxed)
       (stream_insecure T2) (server_new gs o gr)) acts = (z, L) ->
  Acc (net_moves fuel) z.
Proof.
  intros K relaxed o gc gs gr T1 T2 fuel NT SL ST Hmax acts z L E.
  exact (reached_acc K relaxed o gc gs gr T1 T2 fuel NT SL ST z L (ex_intro _ acts E) Hmax).
Qed.
Print Assumptions C55_terminates.

(** nothing more can happen exactly when both sides are at rest; *)
Theorem C55_rest : forall K relaxed o gc gs gr T1 T2 fuel,
  no_trailing K relaxed -> single_lines K -> sno_trailing K o ->
  forall acts z L,
  net_run T1 T2 (client_machine K) (server_machine K) fuel
    (net_new T1 T2 (client_machine K) (server_machine K) (stream_insecure T1) (client_new gc relaxed)
       (stream_insecure T2) (server_new gs o gr)) acts = (z, L) ->
  (at_rest z \/ exists z', net_moves fuel z' z) /\ ~ (at_rest z /\ exists z', net_moves fuel z' z).
Proof.
  intros K relaxed o gc gs gr T1 T2 fuel NT SL ST acts z L E. split.
  - exact (rest_or_moves K relaxed o gc gs gr T1 T2 fuel NT SL ST z L (ex_intro _ acts E)).
  - intros [H M]. exact (rest_still K T1 T2 fuel z H M).
Qed.
Print Assumptions C55_rest.

(** and the assumptions of C53 and C54 stay true. Hence every run can be continued, and if
    nothing interferes is continued, to a run in which everything was delivered (C54). *)
Theorem C55_settles : forall K relaxed o gc gs gr T1 T2 fuel,
  no_trailing K relaxed -> single_lines K -> sno_trailing K o -> (0 < so_max_command_size o)%N ->
  forall acts z L,
  net_run T1 T2 (client_machine K) (server_machine K) fuel
    (net_new T1 T2 (client_machine K) (server_machine K) (stream_insecure T1) (client_new gc relaxed)
       (stream_insecure T2) (server_new gs o gr)) acts = (z, L) ->
  (exists acts' z' L', Forall net_calm acts' /\
     net_run T1 T2 (client_machine K) (server_machine K) fuel z acts' = (z', L') /\ at_rest z') /\
  (forall acts' z' L', Forall net_calm acts' ->
     net_run T1 T2 (client_machine K) (server_machine K) fuel z acts' = (z', L') ->
     orderly K relaxed o gr (app_log L) -> own_roundtrips K relaxed o (app_log L) ->
     orderly K relaxed o gr (app_log (L ++ L')) /\ own_roundtrips K relaxed o (app_log (L ++ L'))).
Proof.
  intros K relaxed o gc gs gr T1 T2 fuel NT SL ST Hmax acts z L E. split.
  - exact (net_settles K relaxed o gc gs gr T1 T2 fuel NT SL ST Hmax z L (ex_intro _ acts E)).
  - intros acts' z' L' C E'. exact (calm_orderly K relaxed o gr T1 T2 fuel z L acts' z' L' E' C).
Qed.
Print Assumptions C55_settles.

(** LOGIN is enqueued. The scheduler [drive] leads to rest in 19 actions, and LOGIN has been
    delivered. *)
Example C55_example :
  (no_trailing toy false /\ single_lines toy /\ sno_trailing toy y_opts /\ (0 < so_max_command_size y_opts)%N) /\
  x_f (n_l q_start) = FIdle /\ Forall net_calm q_acts /\ length q_acts = 19 /\
  at_rest (fst q_run) /\
  sreports (slogs (app_log (snd q_run))) = [IEvent (SeCommandReceived ex_login)].
Proof.
  split; [split; [apply toy_no_trailing|]; split; [apply toy_single_lines|];
    split; [apply toy_sno_trailing|reflexivity]|].
  split; [vm_compute; reflexivity|]. split; [exact q_calm|]. split; [vm_compute; reflexivity|].
  split; [unfold at_rest; vm_compute; auto|]. vm_compute. reflexivity.
Qed.
