(** Properties of a client, the proxy and a server (C57-C61). Vocabulary: SpecRelay.v.
    [relays relaxed o gc gp gq gs gr T1 T2 T3 T4 z L]: a run of a new client, a new proxy and a
    new server ends in [z] with the log [L]. Each of the two connections is plain or uses TLS.
    [at_left L], [at_right L]: what the applications of the client and of the server did and
    were told. [at_in L], [at_out L]: the same for the proxy's two streams. *)
From Coq Require Import List NArith Bool PeanoNat.
From Coq Require String.
Import (notations) String.
From Verif Require Import Base Types Codec Handle Receive ServerSend ClientSend Client Server
  SpecFraming SpecClient SpecServer System SpecSystem SpecSystemLive ToyCodec ToyLaws
  ClientExamples ServerExamples SystemExamples Stream StreamMachine SpecStream ToyTls
  Net SpecNet NetThms NetExamples ProxyUtil Proxy Relay SpecRelay RelayThms RelayEnd RelayPassed
  RelayLive RelayCalm RelayExamples.
From Verif Require SpecProxy.
Import ListNotations.
Open Scope list_scope.
Open Scope nat_scope.

(** ** C57 *)

(** Each of the three runs as it does alone: all theorems about streams and about the proxy
    apply. *)
Theorem C57_alone : forall K relaxed o gc gp gq gs gr T1 T2 T3 T4 fuel s1 s2 s3 s4 acts z L,
  relay_run K T1 T2 T3 T4 fuel gp (relay_new K T1 T2 T3 T4 s1 s2 s3 s4 relaxed o gc gq gs gr) acts = (z, L) ->
  (exists a1, xrun T1 (client_machine K) fuel (@XState T1 (client_machine K) s1 (client_new gc relaxed) FIdle) a1
     = (r_client z, lefts (front L))) /\
  (exists ap, prun K T2 T3 fuel gp (proxy_start K T2 T3 s2 s3 gq) ap = (r_proxy z, middle L)) /\
  (exists a4, xrun T4 (server_machine K) fuel (@XState T4 (server_machine K) s4 (server_new gs o gr) FIdle) a4
     = (r_server z, rights (back L))).
Proof. exact relay_alone. Qed.
Print Assumptions C57_alone.

(** Each of the two connections is a client in a stream connected to a server in a stream:
    the theorems C52 to C56 apply. *)
Theorem C57_legs : forall K relaxed o gc gp gq gs gr T1 T2 T3 T4 fuel s1 s2 s3 s4 acts z L,
  relay_run K T1 T2 T3 T4 fuel gp (relay_new K T1 T2 T3 T4 s1 s2 s3 s4 relaxed o gc gq gs gr) acts = (z, L) ->
  (linked s1 s2 (front L) -> exists g n, @talk K relaxed proxy_soptions gc gp g T1 T2 n (front L)) /\
  (linked s3 s4 (back L) -> exists n, @talk K false o gq gs gr T3 T4 n (back L)).
Proof. exact relay_talks. Qed.
Print Assumptions C57_legs.

(** Between a client whose tags are distinct and a polite server, the proxy is both: its
    stream to the client is polite, and its stream to the server has distinct tags. So the
    assumptions of C53 to C56 hold for both connections. *)
Theorem C57_orderly : forall K relaxed o gc gp gq gs gr T1 T2 T3 T4 z L,
  @relays K relaxed o gc gp gq gs gr T1 T2 T3 T4 z L -> relay_orderly relaxed o gr L ->
  orderly K relaxed proxy_soptions (filter_greeting gr) (app_log (front L)) /\
  own_roundtrips K relaxed proxy_soptions (app_log (front L)) /\
  orderly K false o gr (app_log (back L)) /\ own_roundtrips K false o (app_log (back L)).
Proof.
  intros K relaxed o gc gp gq gs gr T1 T2 T3 T4 z L Run Ord.
  destruct (relay_facts _ _ _ _ _ _ _ _ _ _ _ _ _ _ Run Ord) as (_ & _ & O1 & O2 & _ & O3 & O4 & _). auto.
Qed.
Print Assumptions C57_orderly.

(** What the proxy sends to the client needs no assumption of its own: it is what the proxy may
    make of the greeting, of the server's responses and of its rejections. So it suffices that
    the applications of client and server are orderly ([ends_orderly]), and that encoders and
    decoders agree about such responses ([relayable]). *)
Theorem C57_passed : forall K relaxed o gc gp gq gs gr T1 T2 T3 T4 z L,
  @relays K relaxed o gc gp gq gs gr T1 T2 T3 T4 z L ->
  ends_orderly relaxed o gr L -> relayable relaxed o gr L -> relay_orderly relaxed o gr L.
Proof.
  intros K relaxed o gc gp gq gs gr T1 T2 T3 T4 z L [s1 s2 s3 s4 fuel acts E L1 L2] H1 H2.
  exact (relay_passed _ _ _ _ _ _ _ _ _ _ _ _ _ _ _ _ _ _ _ _ E L1 L2 H1 H2).
Qed.
Print Assumptions C57_passed.

Example C57_passed_example :
  relays false y_opts ex_gen rgen_s rgen_c ygen_s r_greeting TL TL TL TL (fst f_run) f_log /\
  ends_orderly false y_opts r_greeting f_log /\ relayable false y_opts r_greeting f_log /\
  at_in f_log <> [].
Proof.
  split; [exact f_relays|]. split; [exact (ro_ends _ _ _ _ f_orderly)|]. split; [exact f_relayable|].
  rewrite f_inner. vm_compute. discriminate.
Qed.

(** The conversation [r_script], without TLS, and with TLS between client and proxy. *)
Example C57_example :
  (relays false y_opts ex_gen rgen_s rgen_c ygen_s r_greeting TL TL TL TL (r_end r_plain) (r_log r_plain) /\
   relay_orderly false y_opts r_greeting (r_log r_plain)) /\
  (relays false y_opts ex_gen rgen_s rgen_c ygen_s r_greeting TL TL TL TL (r_end r_tls) (r_log r_tls) /\
   relay_orderly false y_opts r_greeting (r_log r_tls)) /\
  length (xread (lefts (front (r_log r_plain)))) = 248 /\ length (xread (lefts (front (r_log r_tls)))) = 496 /\
  length (xread (rights (back (r_log r_tls)))) = 89.
Proof.
  split; [split; [exact r_relays_plain|exact r_orderly]|].
  split; [split; [exact r_relays_tls|exact r_orderly_tls]|]. vm_compute. auto.
Qed.

(** ** C58 *)

(** Between an orderly client and server, the two panics of C39 do not happen. *)
Theorem C58_no_panic : forall K relaxed o gc gp gq gs gr T1 T2 T3 T4 z L,
  @relays K relaxed o gc gp gq gs gr T1 T2 T3 T4 z L -> relay_orderly relaxed o gr L ->
  ~ In PlPanic (middle L).
Proof. exact relay_no_panic. Qed.
Print Assumptions C58_no_panic.

(** Nobody is told of a malformed message. *)
Theorem C58_clean : forall K relaxed o gc gp gq gs gr T1 T2 T3 T4 z L,
  @relays K relaxed o gc gp gq gs gr T1 T2 T3 T4 z L -> relay_orderly relaxed o gr L ->
  (forall e, ~ In (ClNext (IError e)) (at_left L)) /\ (forall e, ~ In (ClNext (IError e)) (at_out L)) /\
  (forall e, In (SlNext (IError e)) (at_in L) -> exists x, e = SerrLiteralTooLong x) /\
  (forall e, In (SlNext (IError e)) (at_right L) -> exists x, e = SerrLiteralTooLong x).
Proof. exact relay_clean. Qed.
Print Assumptions C58_clean.

(** The proxy ends only when a connection is lost. *)
Theorem C58_ends : forall K relaxed o gc gp gq gs gr T1 T2 T3 T4 z L,
  @relays K relaxed o gc gp gq gs gr T1 T2 T3 T4 z L -> relay_orderly relaxed o gr L ->
  no_trailing K false -> single_lines K -> sno_trailing K proxy_soptions ->
  ~ In (PlClient XHang) (middle L) -> ~ In (PlServer XHang) (middle L) ->
  forall why, r_proxy z = PsEnd why ->
  why = PeAborted /\ existsb (@SpecProxy.loses K) (middle L) = true.
Proof. exact relay_ends. Qed.
Print Assumptions C58_ends.

(** At the end of [r_script] the client closes the connection. *)
Definition closes : list rac := [RProxy (false, IoRead (Some []))].
Lemma closes_relays : relays false y_opts ex_gen rgen_s rgen_c ygen_s r_greeting TL TL TL TL
  (fst (rrun r_plain (r_acts r_plain ++ closes))) (snd (rrun r_plain (r_acts r_plain ++ closes))).
Proof.
  eapply relays_intro with (fuel := x_fuel) (acts := r_acts r_plain ++ closes) (s1 := stream_insecure TL)
    (s2 := stream_insecure TL) (s3 := stream_insecure TL) (s4 := stream_insecure TL).
  - unfold r_plain at 2 4, r_new. apply surjective_pairing.
  - now apply linked_plain.
  - now apply linked_plain.
Qed.
Example C58_example :
  r_ended (r_end r_plain) = None /\
  ~ In PlPanic (middle (r_log r_plain)) /\
  r_ended (fst (rrun r_plain (r_acts r_plain ++ closes))) = Some PeAborted /\
  existsb (@SpecProxy.loses toy) (middle (snd (rrun r_plain (r_acts r_plain ++ closes)))) = true.
Proof.
  split; [vm_compute; reflexivity|].
  split; [exact (C58_no_panic _ _ _ _ _ _ _ _ _ _ _ _ _ _ r_relays_plain r_orderly)|].
  split; vm_compute; reflexivity.
Qed.

(** The server has to be polite: here its application accepts IDLE and then enqueues the
    tagged status before it was told "DONE", and the proxy panics. *)
Theorem C58_impolite_refuted :
  relays false y_opts ex_gen rgen_s rgen_c ygen_s r_greeting TL TL TL TL
    (fst impolite_run) (snd impolite_run) /\
  at_right (snd impolite_run) =
    [SlNext (IEvent (SeGreetingSent r_greeting)); SlNext (IEvent (SeIdleCommandReceived (B "A4")));
     SlIdleAccept (CcrBasic None (B "idling")) (inl (Handle 4 0));
     SlNext (IEvent (SeResponseSent (Handle 4 0) (RCcr (CcrBasic None (B "idling")))));
     SlEnqueue (ex_ok "A4") (Handle 4 1);
     SlNext (IEvent (SeResponseSent (Handle 4 1) (ex_ok "A4")))] /\
  In PlPanic (middle (snd impolite_run)) /\ r_ended (fst impolite_run) = Some PePanicked.
Proof. exact impolite_facts. Qed.
Print Assumptions C58_impolite_refuted.

(** ** C59 *)

(** The client is greeted at most once, by the greeting of the server, reduced to what the proxy
    supports. *)
Theorem C59_greeting : forall K relaxed o gc gp gq gs gr T1 T2 T3 T4 z L,
  @relays K relaxed o gc gp gq gs gr T1 T2 T3 T4 z L -> relay_orderly relaxed o gr L ->
  exists g rest, [g] = greetings (events (at_left L)) ++ rest /\ SpecProxy.greeting_reduced gr g.
Proof.
  intros K relaxed o gc gp gq gs gr T1 T2 T3 T4 z L Run Ord.
  destruct (relay_greeting _ _ _ _ _ _ _ _ _ _ _ _ _ _ Run Ord) as (rest & E).
  exists (filter_greeting gr), rest. split; [exact E|apply ProxyFilter.filter_greeting_reduced].
Qed.
Print Assumptions C59_greeting.

(** The requests [rd] of the client's application, except those that the proxy rejects because
    of a literal, have been reported to the server's application: in order, each once, and
    unchanged. The requests [mid] are in the proxy. The responses of the server's application
    and its rejections reach the proxy, in order; some ([late]) are still under way. The proxy
    passes on each of them at once, in order, with capabilities removed at most, and with its
    own text for rejected commands; only when it has ended, the last ([lost]) may be lost. What
    it passed on and its own rejections are what the client's application is told, in order;
    some ([more]) are still under way. *)
Theorem C59_exchange : forall K relaxed o gc gp gq gs gr T1 T2 T3 T4 z L,
  @relays K relaxed o gc gp gq gs gr T1 T2 T3 T4 z L -> relay_orderly relaxed o gr L ->
  exists rd mid rest took,
  requests (at_left L) = rd ++ mid ++ rest /\
  Forall2 (read_as K o) took (filter (@passes K proxy_soptions) rd) /\
  sreports (at_right L) = map (fun p => sresult (fst p) (snd p)) took /\
  exists late got lost more,
    interleaved (given (rights (back L)))
      (flat_map (rejection K o) (filter (@passes K proxy_soptions) rd))
      (reported_all (events (at_out L)) ++ late) /\
    reported_all (events (at_out L)) = got ++ lost /\
    length lost <= 1 /\ (forall c s, r_proxy z = PsLoop c s -> lost = []) /\
    Forall2 passed got (given (rights (front L))) /\
    interleaved (given (rights (front L))) (flat_map (rejection K proxy_soptions) (rd ++ mid))
      (reported_all (events (at_left L)) ++ more).
Proof. exact relay_exchange. Qed.
Print Assumptions C59_exchange.

(** The requests are those of the enqueued commands, in order. *)
Theorem C59_commands : forall K relaxed o gc gp gq gs gr T1 T2 T3 T4 z L,
  @relays K relaxed o gc gp gq gs gr T1 T2 T3 T4 z L -> relay_orderly relaxed o gr L ->
  exists rest, map snd (enqueued (at_left L)) = cmds (requests (at_left L)) ++ rest.
Proof. exact relay_cmds. Qed.
Print Assumptions C59_commands.

(** If no literal exceeds a limit: *)
Theorem C59_delivered : forall K relaxed o gc gp gq gs gr T1 T2 T3 T4 z L,
  @relays K relaxed o gc gp gq gs gr T1 T2 T3 T4 z L -> relay_orderly relaxed o gr L ->
  (forall h c, In (h, c) (enqueued (at_left L)) ->
     lits_fit proxy_soptions (enc_command K c) /\ lits_fit o (enc_command K c)) ->
  exists rd rest,
  requests (at_left L) = rd ++ rest /\
  sreports (at_right L) = map (fun q => IEvent (request_event q)) rd /\
  exists rs more, given (rights (back L)) = rs ++ more /\ Forall2 passed rs (reported_all (events (at_left L))).
Proof. exact relay_delivered. Qed.
Print Assumptions C59_delivered.

(** Every command that the server's application is told was enqueued by the client's. *)
Theorem C59_no_smuggling : forall K relaxed o gc gp gq gs gr T1 T2 T3 T4 z L,
  @relays K relaxed o gc gp gq gs gr T1 T2 T3 T4 z L -> relay_orderly relaxed o gr L ->
  forall c, In (IEvent (command_event c)) (sreports (at_right L)) ->
  exists h, In (h, c) (enqueued (at_left L)).
Proof. exact relay_smuggling. Qed.
Print Assumptions C59_no_smuggling.

Definition rejected_text : bytes := B "proxy: Command rejected by server".
Example C59_example :
  let L := r_log r_tls in
  requests (at_left L) =
    [RqCommand ex_login; RqCommand ex_append; RqCommand ex_auth; RqData (ADContinue (B "secret"));
     RqCommand ex_idle; RqDone] /\
  sreports (at_right L) =
    [IEvent (SeCommandReceived ex_login); IError (SerrLiteralTooLong (ln "A5 APPEND {11}"));
     IEvent (SeCommandAuthenticateReceived ex_ca);
     IEvent (SeAuthenticateDataReceived (ADContinue (B "secret")));
     IEvent (SeIdleCommandReceived (B "A4")); IEvent SeIdleDoneReceived] /\
  given (rights (back L)) =
    [ex_fetch; RData (DCapability (Vec1 CapIdle [CapOther (B "X")])); ex_ok "A2";
     RCcr (CcrBasic None (B "data?")); RStatus (StTagged (B "A3") (StatusBody SkOk None (B "in")));
     RCcr (CcrBasic None (B "idling")); ex_ok "A4"] /\
  reported_all (events (at_left L)) =
    [ex_fetch; RData (DCapability (Vec1 CapIdle [])); ex_ok "A2";
     RStatus (StTagged (B "A5") (StatusBody SkBad None rejected_text));
     RCcr (CcrBasic None (B "data?")); RStatus (StTagged (B "A3") (StatusBody SkOk None (B "in")));
     RCcr (CcrBasic None (B "idling")); ex_ok "A4"] /\
  hd_error (events (at_left L)) = Some (CeGreetingReceived
    (Greeting GkOk (Some (CodeCapability (Vec1 CapImap4Rev1 [CapIdle]))) (B "hello"))).
Proof. cbv zeta. split; [|split; [|split; [|split]]]; vm_compute; reflexivity. Qed.

(** ** C60 *)

(** When nothing is under way and all wait for bytes: all requests that the proxy does not
    reject have been reported. The proxy was told exactly the responses that were reported as
    sent to the server's application, and the rejections by the server; it has passed on all of
    them. The client's application was told exactly those that the proxy has sent, and the
    rejections by the proxy; some ([late]) may not be sent, see C60_told. *)
Theorem C60_rest : forall K relaxed o gc gp gq gs gr T1 T2 T3 T4 z L,
  @relays K relaxed o gc gp gq gs gr T1 T2 T3 T4 z L -> relay_orderly relaxed o gr L ->
  relay_at_rest T1 T2 T3 T4 z ->
  exists took, Forall2 (read_as K o) took (filter (@passes K proxy_soptions) (requests (at_left L))) /\
  sreports (at_right L) = map (fun p => sresult (fst p) (snd p)) took /\
  interleaved (told_sent (at_right L))
    (flat_map (rejection K o) (filter (@passes K proxy_soptions) (requests (at_left L))))
    (reported_all (events (at_out L))) /\
  Forall2 passed (reported_all (events (at_out L))) (given (rights (front L))) /\
  (exists late, given (rights (front L)) = told_sent (at_in L) ++ late) /\
  interleaved (told_sent (at_in L)) (flat_map (rejection K proxy_soptions) (requests (at_left L)))
    (reported_all (events (at_left L))).
Proof. exact relay_rest. Qed.
Print Assumptions C60_rest.

(** The client's application was told the greeting, with at most the capabilities changed, once. *)
Theorem C60_greeted : forall K relaxed o gc gp gq gs gr T1 T2 T3 T4 z L,
  @relays K relaxed o gc gp gq gs gr T1 T2 T3 T4 z L -> relay_orderly relaxed o gr L ->
  relay_at_rest T1 T2 T3 T4 z ->
  exists g, greetings (events (at_left L)) = [g] /\ SpecProxy.greeting_reduced gr g.
Proof.
  intros K relaxed o gc gp gq gs gr T1 T2 T3 T4 z L Run Ord Rest. exists (filter_greeting gr).
  split; [|apply ProxyFilter.filter_greeting_reduced].
  exact (relay_rest_greeted _ _ _ _ _ _ _ _ _ _ _ _ _ _ Run Ord Rest).
Qed.
Print Assumptions C60_greeted.

(** What the server's application enqueued was sent, unless the server rejected a request.
    What the proxy passed on was sent, unless the proxy rejected one ([late] above). *)
Theorem C60_told : forall K relaxed o gc gp gq gs gr T1 T2 T3 T4 z L,
  @relays K relaxed o gc gp gq gs gr T1 T2 T3 T4 z L -> relay_orderly relaxed o gr L ->
  relay_at_rest T1 T2 T3 T4 z ->
  (flat_map (rejection K o) (filter (@passes K proxy_soptions) (requests (at_left L))) = [] ->
   told_sent (at_right L) = given (rights (back L))) /\
  (flat_map (rejection K proxy_soptions) (requests (at_left L)) = [] ->
   told_sent (at_in L) = given (rights (front L))).
Proof. exact relay_rest_told. Qed.
Print Assumptions C60_told.

(** If no literal exceeds a limit, nothing is left anywhere. *)
Theorem C60_delivered : forall K relaxed o gc gp gq gs gr T1 T2 T3 T4 z L,
  @relays K relaxed o gc gp gq gs gr T1 T2 T3 T4 z L -> relay_orderly relaxed o gr L ->
  (forall h c, In (h, c) (enqueued (at_left L)) ->
     lits_fit proxy_soptions (enc_command K c) /\ lits_fit o (enc_command K c)) ->
  relay_at_rest T1 T2 T3 T4 z ->
  sreports (at_right L) = map (fun q => IEvent (request_event q)) (requests (at_left L)) /\
  Forall2 passed (given (rights (back L))) (reported_all (events (at_left L))).
Proof. exact relay_rest_delivered. Qed.
Print Assumptions C60_delivered.

(** The only commands that are not resolved wait behind AUTHENTICATE or IDLE. *)
Theorem C60_resolved : forall K relaxed o gc gp gq gs gr T1 T2 T3 T4 z L,
  @relays K relaxed o gc gp gq gs gr T1 T2 T3 T4 z L -> relay_orderly relaxed o gr L ->
  relay_at_rest T1 T2 T3 T4 z ->
  forall h c, oldest (at_left L) = Some (h, c) -> ~ regular c.
Proof. exact relay_rest_oldest. Qed.
Print Assumptions C60_resolved.

Example C60_example :
  relay_at_rest TL TL TL TL (r_end r_plain) /\ relay_at_rest TL TL TL TL (r_end r_tls) /\
  (relays false y_opts ex_gen rgen_s rgen_c ygen_s r_greeting TL TL TL TL (fst f_run) f_log /\
   relay_orderly false y_opts r_greeting f_log /\ relay_at_rest TL TL TL TL (fst f_run) /\
   (forall h c, In (h, c) (enqueued (at_left f_log)) ->
      lits_fit proxy_soptions (enc_command toy c) /\ lits_fit y_opts (enc_command toy c)) /\
   given (rights (back f_log)) = [ex_fetch; ex_caps; ex_ok "A2"] /\
   reported_all (events (at_left f_log)) = [ex_fetch; RData (DCapability (Vec1 CapIdle [])); ex_ok "A2"]).
Proof.
  split; [unfold relay_at_rest; vm_compute; tauto|]. split; [unfold relay_at_rest; vm_compute; tauto|].
  split; [exact f_relays|]. split; [exact f_orderly|]. split; [unfold relay_at_rest; vm_compute; tauto|].
  split; [|split; vm_compute; reflexivity].
  rewrite f_enqueued. intros h c [H|[]]. injection H as _ <-.
  rewrite !fits_forallb. split; vm_compute; reflexivity.
Qed.

(** ** C61 *)

(** Without TLS. Futures are created and polled, sockets accept bytes, and bytes arrive, in any
    order; the applications of client and server do nothing. This comes to an end, whatever
    they have done before. *)
Theorem C61_terminates : forall K relaxed o gc gp gq gs gr T1 T2 T3 T4 fuel acts z L,
  no_trailing K relaxed -> no_trailing K false -> single_lines K ->
  sno_trailing K proxy_soptions -> sno_trailing K o -> (0 < so_max_command_size o)%N ->
  relay_run K T1 T2 T3 T4 fuel gp
    (relay_new K T1 T2 T3 T4 (stream_insecure T1) (stream_insecure T2) (stream_insecure T3) (stream_insecure T4)
       relaxed o gc gq gs gr) acts = (z, L) ->
  Acc (relay_moves fuel gp) z.
Proof.
  intros K relaxed o gc gp gq gs gr T1 T2 T3 T4 fuel acts z L H1 H2 H3 H4 H5 H6 E.
  apply (relay_acc K relaxed o gc gp gq gs gr T1 T2 T3 T4 fuel H1 H2 H3 H4 H5 H6 z L). now exists acts.
Qed.
Print Assumptions C61_terminates.

(** If the ends are orderly and the proxy has not lost a connection, nothing more is possible
    exactly when all is at rest: then C60 says what was delivered. *)
Theorem C61_rest : forall K relaxed o gc gp gq gs gr T1 T2 T3 T4 fuel acts z L,
  no_trailing K relaxed -> no_trailing K false -> single_lines K ->
  sno_trailing K proxy_soptions -> sno_trailing K o ->
  relay_run K T1 T2 T3 T4 fuel gp
    (relay_new K T1 T2 T3 T4 (stream_insecure T1) (stream_insecure T2) (stream_insecure T3) (stream_insecure T4)
       relaxed o gc gq gs gr) acts = (z, L) ->
  ends_orderly relaxed o gr L -> relayable relaxed o gr L ->
  existsb (@SpecProxy.loses K) (middle L) = false ->
  (relay_at_rest T1 T2 T3 T4 z <-> forall z', ~ relay_moves fuel gp z' z).
Proof.
  intros K relaxed o gc gp gq gs gr T1 T2 T3 T4 fuel acts z L H1 H2 H3 H4 H5 E.
  apply (rest_iff K relaxed o gc gp gq gs gr T1 T2 T3 T4 fuel H1 H2 H3 H4 H5 z L). now exists acts.
Qed.
Print Assumptions C61_rest.

(** Such a continuation needs no further assumptions: the applications only receive, and all
    that was assumed stays true. *)
Theorem C61_orderly : forall K relaxed o gc gp gq gs gr T1 T2 T3 T4 fuel acts z L acts' z' L',
  no_trailing K relaxed -> no_trailing K false -> single_lines K ->
  sno_trailing K proxy_soptions -> sno_trailing K o ->
  relay_run K T1 T2 T3 T4 fuel gp
    (relay_new K T1 T2 T3 T4 (stream_insecure T1) (stream_insecure T2) (stream_insecure T3) (stream_insecure T4)
       relaxed o gc gq gs gr) acts = (z, L) ->
  ends_orderly relaxed o gr L -> relayable relaxed o gr L ->
  existsb (@SpecProxy.loses K) (middle L) = false ->
  Forall (@relay_calm K) acts' -> relay_run K T1 T2 T3 T4 fuel gp z acts' = (z', L') ->
  relays relaxed o gc gp gq gs gr T1 T2 T3 T4 z' (L ++ L') /\ relay_orderly relaxed o gr (L ++ L') /\
  existsb (@SpecProxy.loses K) (middle (L ++ L')) = false /\
  (forall e, In e (at_left L') -> exists r, e = ClNext r) /\
  (forall e, In e (at_right L') -> exists r, e = SlNext r).
Proof.
  intros K relaxed o gc gp gq gs gr T1 T2 T3 T4 fuel acts z L acts' z' L' H1 H2 H3 H4 H5 E O1 O2 N C E'.
  destruct (calm_facts K relaxed o gc gp gq gs gr T1 T2 T3 T4 fuel H1 H2 H3 H4 H5 z L acts' z' L'
    (ex_intro _ acts E) O1 O2 N C E') as (R & Q).
  split; [now apply (rreached_relays K relaxed o gc gp gq gs gr T1 T2 T3 T4 fuel)|exact Q].
Qed.
Print Assumptions C61_orderly.

(** There is such a continuation to rest. *)
Theorem C61_settles : forall K relaxed o gc gp gq gs gr T1 T2 T3 T4 fuel acts z L,
  no_trailing K relaxed -> no_trailing K false -> single_lines K ->
  sno_trailing K proxy_soptions -> sno_trailing K o ->
  relay_run K T1 T2 T3 T4 fuel gp
    (relay_new K T1 T2 T3 T4 (stream_insecure T1) (stream_insecure T2) (stream_insecure T3) (stream_insecure T4)
       relaxed o gc gq gs gr) acts = (z, L) ->
  ends_orderly relaxed o gr L -> relayable relaxed o gr L ->
  existsb (@SpecProxy.loses K) (middle L) = false ->
  exists acts' z' L', Forall (@relay_calm K) acts' /\
    relay_run K T1 T2 T3 T4 fuel gp z acts' = (z', L') /\ relay_at_rest T1 T2 T3 T4 z'.
Proof.
  intros K relaxed o gc gp gq gs gr T1 T2 T3 T4 fuel acts z L H1 H2 H3 H4 H5 E.
  apply (settles K relaxed o gc gp gq gs gr T1 T2 T3 T4 fuel H1 H2 H3 H4 H5 z L). now exists acts.
Qed.
Print Assumptions C61_settles.

(** Whichever such continuation is taken, once nothing more is possible all is delivered, if no
    literal exceeds a limit: the server's application was told all requests, and the client's
    all responses. *)
Theorem C61_delivered : forall K relaxed o gc gp gq gs gr T1 T2 T3 T4 fuel acts z L acts' z' L',
  no_trailing K relaxed -> no_trailing K false -> single_lines K ->
  sno_trailing K proxy_soptions -> sno_trailing K o ->
  relay_run K T1 T2 T3 T4 fuel gp
    (relay_new K T1 T2 T3 T4 (stream_insecure T1) (stream_insecure T2) (stream_insecure T3) (stream_insecure T4)
       relaxed o gc gq gs gr) acts = (z, L) ->
  ends_orderly relaxed o gr L -> relayable relaxed o gr L ->
  existsb (@SpecProxy.loses K) (middle L) = false ->
  (forall h c, In (h, c) (enqueued (at_left L)) ->
     lits_fit proxy_soptions (enc_command K c) /\ lits_fit o (enc_command K c)) ->
  Forall (@relay_calm K) acts' -> relay_run K T1 T2 T3 T4 fuel gp z acts' = (z', L') ->
  (forall z'', ~ relay_moves fuel gp z'' z') ->
  sreports (at_right (L ++ L')) = map (fun q => IEvent (request_event q)) (requests (at_left (L ++ L'))) /\
  Forall2 passed (given (rights (back L))) (reported_all (events (at_left (L ++ L')))) /\
  (exists g, greetings (events (at_left (L ++ L'))) = [g] /\ SpecProxy.greeting_reduced gr g) /\
  (forall h c, oldest (at_left (L ++ L')) = Some (h, c) -> ~ regular c).
Proof.
  intros K relaxed o gc gp gq gs gr T1 T2 T3 T4 fuel acts z L acts' z' L' H1 H2 H3 H4 H5 E O1 O2 N Fit C E' St.
  exact (settled_delivered K relaxed o gc gp gq gs gr T1 T2 T3 T4 fuel H1 H2 H3 H4 H5 z L acts' z' L'
    (ex_intro _ acts E) O1 O2 N Fit C E' St).
Qed.
Print Assumptions C61_delivered.

(** [h_run]: the server's application has enqueued three responses, none is sent. [h_rest] leads
    to rest, and all three are reported. *)
Example C61_example :
  no_trailing toy false /\ single_lines toy /\ sno_trailing toy proxy_soptions /\ sno_trailing toy y_opts /\
  relay_run toy TL TL TL TL x_fuel rgen_s r_plain h_acts = (fst h_run, h_log) /\
  ends_orderly false y_opts r_greeting h_log /\ relayable false y_opts r_greeting h_log /\
  existsb (@SpecProxy.loses toy) (middle h_log) = false /\
  given (rights (back h_log)) = [ex_fetch; ex_caps; ex_ok "A2"] /\
  reported_all (events (at_left h_log)) = [] /\
  Forall (@relay_calm toy) h_rest /\
  relay_at_rest TL TL TL TL (fst (relay_run toy TL TL TL TL x_fuel rgen_s (fst h_run) h_rest)) /\
  greetings (events (at_left (h_log ++ snd (relay_run toy TL TL TL TL x_fuel rgen_s (fst h_run) h_rest)))) =
    [filter_greeting r_greeting] /\
  reported_all (events (at_left (h_log ++ snd (relay_run toy TL TL TL TL x_fuel rgen_s (fst h_run) h_rest)))) =
    [ex_fetch; RData (DCapability (Vec1 CapIdle [])); ex_ok "A2"].
Proof.
  split; [apply toy_no_trailing|]. split; [exact toy_single_lines|].
  split; [apply toy_sno_trailing|]. split; [apply toy_sno_trailing|].
  split; [unfold h_log, h_run; apply surjective_pairing|].
  split; [exact h_orderly|]. split; [exact h_relayable|].
  split; [vm_compute; reflexivity|]. split; [vm_compute; reflexivity|]. split; [vm_compute; reflexivity|].
  split; [exact h_calm|]. split; [unfold relay_at_rest; vm_compute; tauto|].
  rewrite <- h_continued. split; vm_compute; reflexivity.
Qed.

(** A case for C54_told: the connection between client and proxy in this run. *)
Example C54_told_example : exists n,
  @talk toy false proxy_soptions ex_gen rgen_s (filter_greeting r_greeting) TL TL n (front f_log) /\
  orderly toy false proxy_soptions (filter_greeting r_greeting) (app_log (front f_log)) /\
  own_roundtrips toy false proxy_soptions (app_log (front f_log)) /\ at_rest n /\
  flat_map (rejection toy proxy_soptions) (requests (clogs (app_log (front f_log)))) = [] /\
  given (rights (front f_log)) = [ex_fetch; RData (DCapability (Vec1 CapIdle [])); ex_ok "A2"].
Proof.
  assert (R : relay_at_rest TL TL TL TL (fst f_run)) by (unfold relay_at_rest; vm_compute; tauto).
  destruct (rest_legs _ _ _ _ _ _ _ _ _ _ _ _ _ _ f_relays f_orderly R) as (_ & n & _ & Tf & _ & Rf & _).
  destruct (C57_orderly _ _ _ _ _ _ _ _ _ _ _ _ _ _ f_relays f_orderly) as (O1 & O2 & _).
  exists n. split; [exact Tf|]. split; [exact O1|]. split; [exact O2|]. split; [exact Rf|].
  split; vm_compute; reflexivity.
Qed.
