(** Vocabulary for statements about a client, the proxy and a server (Relay.v). *)
From Coq Require Import String List NArith Bool PeanoNat.
From Verif Require Import Base Types Codec Handle Receive ClientSend Client ServerSend Server Stream StreamMachine SpecStream
  ProxyUtil Proxy SpecProxy SpecFraming SpecClient SpecServer System SpecSystem SpecSystemLive
  Net SpecNet Relay.
Import ListNotations.
Open Scope list_scope.

(** ** The two legs *)

Section Legs.
Context {K : Codecs}.
Notation CM := (client_machine K).
Notation SM := (server_machine K).

(** What happens at the client, and at the proxy's stream to its client. *)
Definition front (L : list (rlog K)) : list (nlog CM SM) :=
  flat_map (fun e => match e with
    | RC e => [NL e] | RP (PlClient e) => [NR e] | _ => [] end) L.
(** What happens at the proxy's stream to the server, and at the server. *)
Definition back (L : list (rlog K)) : list (nlog CM SM) :=
  flat_map (fun e => match e with
    | RP (PlServer e) => [NL e] | RS e => [NR e] | _ => [] end) L.
(** What happens at the proxy. *)
Definition middle (L : list (rlog K)) : list (plog K) :=
  flat_map (fun e => match e with RP e => [e] | _ => [] end) L.
End Legs.

(** A stream neither panicked nor entered an infinite loop. *)
Definition alive {M} (l : list (xlog M)) : Prop := ~ In XPanic l /\ ~ In XHang l.

(** Two streams that are connected: both without TLS; or both with sessions that understand
    each other, and no error occurred. *)
Inductive linked {T1 T2 : tls} (s1 : stream T1) (s2 : stream T2) {M1 M2} (L : list (nlog M1 M2)) : Prop :=
| linked_plain : s1 = stream_insecure T1 -> s2 = stream_insecure T2 -> linked s1 s2 L
| linked_tls : forall t1 t2 peer1 R1 dec1 peer2 R2 dec2,
    s1 = stream_tls T1 t1 -> s2 = stream_tls T2 t2 ->
    tls_link T1 T2 t1 t2 peer1 R1 dec1 -> tls_link T2 T1 t2 t1 peer2 R2 dec2 ->
    no_error (lefts L) -> no_error (rights L) -> alive (lefts L) -> alive (rights L) ->
    linked s1 s2 L.

(** ** What the proxy makes of a response *)

(** A tagged "BAD" by which the server rejects a command while the client still sends it is
    replaced. All other responses stay what they are; at most capabilities are removed. *)
Inductive passed : response -> response -> Prop :=
| pa_continue : forall q, passed (RCcr q) (RCcr q)
| pa_tagged : forall t b, passed (RStatus (StTagged t b)) (RStatus (StTagged t b))
| pa_reduced : forall r r', response_reduced r r' -> passed r r'
| pa_alert : forall t b, sb_kind b = SkBad -> sb_code b = Some CodeAlert ->
    passed (RStatus (StTagged t b))
      (RStatus (StTagged t (StatusBody SkBad (Some CodeAlert) (sb_text b))))
| pa_rejected : forall t b, sb_kind b = SkBad -> sb_code b <> Some CodeAlert ->
    passed (RStatus (StTagged t b))
      (RStatus (StTagged t (StatusBody SkBad None
        (String.list_byte_of_string "proxy: Command rejected by server")))).

(** A run of client, proxy and server, and what happened. *)
Section Runs.
Context {K : Codecs} (relaxed : bool) (o : soptions) (gc gp gq gs : hgen) (gr : greeting)
  (T1 T2 T3 T4 : tls).

Inductive relays (z : relay K T1 T2 T3 T4) (L : list (rlog K)) : Prop :=
| relays_intro : forall s1 s2 s3 s4 fuel acts,
    relay_run K T1 T2 T3 T4 fuel gp (relay_new K T1 T2 T3 T4 s1 s2 s3 s4 relaxed o gc gq gs gr) acts
      = (z, L) ->
    linked s1 s2 (front L) -> linked s3 s4 (back L) -> relays z L.

(** ** Assumptions *)

(** What the client's application did and saw, and what the server's did and saw. *)
Definition at_left (L : list (rlog K)) : list clog := clogs (app_log (front L)).
Definition at_right (L : list (rlog K)) : list slog := slogs (app_log (back L)).
(** The same for the proxy's stream to its client, and for its stream to the server. *)
Definition at_in (L : list (rlog K)) : list slog := slogs (app_log (front L)).
Definition at_out (L : list (rlog K)) : list clog := clogs (app_log (back L)).

(** Assumptions about the encoders and decoders and about the limits, for what the applications
    of the client and of the server do in [L]; the tags of the client are distinct; and the
    application of the server is polite. *)
Record ends_orderly (L : list (rlog K)) : Prop := {
  ro_responses : forall m, In m (scheduled o gr (at_right L)) -> msg_roundtrips K false m;
  ro_cmds : forall h c, In (h, c) (enqueued (at_left L)) ->
    cmd_roundtrips K c /\ cmd_fits K proxy_soptions c /\ cmd_fits K o c;
  ro_data : forall d h, In (ClSetAuth d (inl h)) (at_left L) ->
    line_roundtrips (dec_authdata K) (enc_authdata K d) d /\
    line_fits proxy_soptions (enc_authdata K d) /\ line_fits o (enc_authdata K d);
  ro_done : forall h, In (ClSetDone (Some h)) (at_left L) ->
    line_roundtrips (dec_idledone K) (enc_idledone K) tt /\
    line_fits proxy_soptions (enc_idledone K) /\ line_fits o (enc_idledone K);
  ro_size : (0 < so_max_command_size o)%N;
  ro_tags : NoDup (map (fun x => ctag (snd x)) (enqueued (at_left L)));
  ro_polite : polite (at_right L);
  ro_own : own_roundtrips K relaxed proxy_soptions (app_log (front L));
  ro_accept : msg_roundtrips K false (SmResponse None (RCcr (CcrBasic None (so_accept_text o))));
  ro_reject : forall h c, In (h, c) (enqueued (at_left L)) ->
    msg_roundtrips K false
      (SmResponse None (RStatus (StTagged (ctag c) (StatusBody SkBad None (so_reject_text o)))))
}.
(** The same for what the proxy sends to the client, too. *)
Record relay_orderly (L : list (rlog K)) : Prop := {
  ro_ends : ends_orderly L;
  ro_passed : forall m, In m (scheduled proxy_soptions (filter_greeting gr) (at_in L)) ->
    msg_roundtrips K relaxed m
}.

(** The encoders and decoders agree about everything that the proxy may make of the greeting,
    of the responses that the application of the server has given, and of the rejections of
    the commands. *)
Definition relayable (L : list (rlog K)) : Prop :=
  msg_roundtrips K relaxed (SmGreeting (filter_greeting gr)) /\
  forall r r' h, passed r r' ->
    In r (given (rights (back L))) \/
    (exists h c, In (h, c) (enqueued (at_left L)) /\ In r (rejection K o (RqCommand c))) ->
    msg_roundtrips K relaxed (SmResponse h r').

(** ** Statements *)

(** All literals of the request are within the limit of a server with options [o']. *)
Definition passes (o' : soptions) (q : request) : bool :=
  match q with RqCommand c => forallb (lit_fitsb o') (enc_command K c) | _ => true end.

(** Nothing is under way; all wait for bytes from the network, the proxy on both sides. *)
Definition relay_at_rest (z : relay K T1 T2 T3 T4) : Prop :=
  r_in z = [] /\ r_out z = [] /\ r_up z = [] /\ r_down z = [] /\
  x_f (r_client z) = FRead /\ x_f (r_server z) = FRead /\
  match r_proxy z with PsLoop c s => x_f c = FRead /\ x_f s = FRead | _ => False end.
End Runs.

(** ** Without the applications *)

Section Calm.
Context {K : Codecs} {T1 T2 T3 T4 : tls}.

(** Actions without the applications of the client and of the server, and without failures:
    futures are created and polled, sockets accept bytes, bytes arrive. *)
Definition io_calm (a : io) : Prop :=
  match a with IoPoll | IoWrite (Some (S _)) => True | _ => False end.
Definition relay_calm (a : ract K) : Prop :=
  match a with
  | RClient a => calm a
  | RServer a => calm a
  | RProxy (_, a) => io_calm a
  | RFromClient _ | RToClient _ | RToServer _ | RFromServer _ => True
  end.

(** One such action that is possible in [z], and leads to [z']. *)
Definition relay_moves (fuel : nat) (gp : hgen) (z' z : relay K T1 T2 T3 T4) : Prop :=
  exists a l, relay_calm a /\ relay_step K T1 T2 T3 T4 fuel gp z a = (z', l) /\ l <> [].

(** Nothing can be read and nothing is left to write: the ends wait for bytes, the proxy waits
    for bytes, first of the server only, later on both sides, or has ended. *)
Definition relay_quiet (z : relay K T1 T2 T3 T4) : Prop :=
  r_out z = [] /\ r_up z = [] /\ x_f (r_client z) = FRead /\ x_f (r_server z) = FRead /\
  match r_proxy z with
  | PsGreeting _ s => r_down z = [] /\ x_f s = FRead
  | PsLoop c s => r_in z = [] /\ r_down z = [] /\ x_f c = FRead /\ x_f s = FRead
  | PsEnd _ => True
  end.
End Calm.
