(** What it means that a test passes. *)
From Coq Require Import List.
From Verif Require Import Base Types Codec Handle ClientSend Client ServerSend Server Stream StreamMachine Testers.
Import ListNotations.

(** The test has returned. *)
Definition returned {E1 E2} (t : test E1 E2) (s : tstate E1 E2) : Prop :=
  ts_ph s = length (tc_phases t) /\ ts_panic s = false.

(** Some choice of the scheduler is possible. *)
Definition tmoves {E1 E2} (t : test E1 E2) (s' s : tstate E1 E2) : Prop :=
  exists k, tstep E1 E2 t s k = Some s'.

(** Whatever the schedule: the test does not panic; it cannot go on for ever; and it does not
    get stuck before it returns. *)
Definition always_passes {E1 E2} (t : test E1 E2) : Prop :=
  forall ks, let s := trun E1 E2 t (tstart E1 E2 t) ks in
  ts_panic s = false /\ Acc (tmoves t) s /\ (returned t s \/ exists s', tmoves t s' s).

(** Some schedule makes the test panic. *)
Definition can_panic {E1 E2} (t : test E1 E2) : Prop :=
  exists ks, ts_panic (trun E1 E2 t (tstart E1 E2 t) ks) = true.

(** Whatever the schedule, the test neither panics nor goes on for ever. *)
Definition never_fails {E1 E2} (t : test E1 E2) : Prop :=
  forall ks, let s := trun E1 E2 t (tstart E1 E2 t) ks in ts_panic s = false /\ Acc (tmoves t) s.

(** Some schedule lets the test return. *)
Definition can_pass {E1 E2} (t : test E1 E2) : Prop :=
  exists ks, returned t (trun E1 E2 t (tstart E1 E2 t) ks).

(** Some schedule leaves the test hanging: it has not returned, and nothing is possible. *)
Definition can_hang {E1 E2} (t : test E1 E2) : Prop :=
  exists ks, let s := trun E1 E2 t (tstart E1 E2 t) ks in
  ts_ph s <> length (tc_phases t) /\ ts_panic s = false /\ forall k, tstep E1 E2 t s k = None.

(** What the functions of the testers wait for: [r] is what [next] returns, [own] the handle and
    the command (response) of the last call. Anything else fails the test. *)
Definition is_status (K : Codecs) (b : bytes) (s : status) : Prop :=
  dec_response K b = DecOk [] (RStatus s).
Inductive client_wants (K : Codecs) (own : option (handle * command))
  : cexpect -> sret (client_machine K) -> Prop :=
| CwGreeting b g : dec_greeting K b = DecOk [] g ->
    client_wants K own (CxGreeting b) (@RetEvent (client_machine K) (CeGreetingReceived g))
| CwSent h c : own = Some (h, c) -> client_wants K own CxSent (@RetEvent (client_machine K) (CeCommandSent h c))
| CwIdleSent h c : own = Some (h, c) -> client_wants K own CxIdleSent (@RetEvent (client_machine K) (CeIdleCommandSent h))
| CwIdleDoneSent h c : own = Some (h, c) ->
    client_wants K own CxIdleDoneSent (@RetEvent (client_machine K) (CeIdleDoneSent h))
| CwAuthStarted h c : own = Some (h, c) ->
    client_wants K own CxAuthStarted (@RetEvent (client_machine K) (CeAuthenticateStarted h))
| CwRejected b h c s : own = Some (h, c) -> is_status K b s ->
    client_wants K own (CxRejected b) (@RetEvent (client_machine K) (CeCommandRejected h c s))
| CwData b d : dec_response K b = DecOk [] (RData d) ->
    client_wants K own (CxData b) (@RetEvent (client_machine K) (CeDataReceived d))
| CwStatus b s : is_status K b s -> client_wants K own (CxStatus b) (@RetEvent (client_machine K) (CeStatusReceived s))
| CwIdleAccepted b h c q : own = Some (h, c) -> dec_response K b = DecOk [] (RCcr q) ->
    client_wants K own (CxIdleAccepted b) (@RetEvent (client_machine K) (CeIdleAccepted h q))
| CwIdleRejected b h c s : own = Some (h, c) -> is_status K b s ->
    client_wants K own (CxIdleRejected b) (@RetEvent (client_machine K) (CeIdleRejected h s))
| CwAuthContinue b h c q : own = Some (h, c) -> dec_response K b = DecOk [] (RCcr q) ->
    client_wants K own (CxAuthContinue b) (@RetEvent (client_machine K) (CeAuthenticateContinuationRequestReceived h q))
| CwAuthStatus bc b h c ca s : own = Some (h, c) ->
    dec_command K bc = DecOk [] (command_of_authenticate ca) ->
    frags_bytes (enc_command K (command_of_authenticate ca)) = bc ->
    is_status K b s -> frags_bytes (enc_response K (RStatus s)) = b ->
    client_wants K own (CxAuthStatus bc b) (@RetEvent (client_machine K) (CeAuthenticateStatusReceived h ca s))
| CwLf b : client_wants K own (CxLf b) (@RetState (client_machine K) (CerrExpectedCrlfGotLf b))
| CwMalformed b : client_wants K own (CxMalformed b) (@RetState (client_machine K) (CerrMalformedMessage b)).

Inductive server_wants (K : Codecs) (own : option (handle * response))
  : sexpect -> sret (server_machine K) -> Prop :=
| SwGreeted b g : dec_greeting K b = DecOk [] g -> frags_bytes (enc_greeting K g) = b ->
    server_wants K own (SxGreeted b) (@RetEvent (server_machine K) (SeGreetingSent g))
| SwSent h q : own = Some (h, q) -> server_wants K own SxSent (@RetEvent (server_machine K) (SeResponseSent h q))
| SwLf b : server_wants K own (SxLf b) (@RetState (server_machine K) (SerrExpectedCrlfGotLf b))
| SwMalformed b : server_wants K own (SxMalformed b) (@RetState (server_machine K) (SerrMalformedMessage b))
| SwLiteralTooLong b : server_wants K own (SxLiteralTooLong b) (@RetState (server_machine K) (SerrLiteralTooLong b))
| SwCommandTooLong b : server_wants K own (SxCommandTooLong b) (@RetState (server_machine K) (SerrCommandTooLong b))
| SwCommand b c : dec_command K b = DecOk [] c ->
    server_wants K own (SxCommand b) (@RetEvent (server_machine K) (SeCommandReceived c))
| SwIdle b c : dec_command K b = DecOk [] c ->
    server_wants K own (SxIdle b) (@RetEvent (server_machine K) (SeIdleCommandReceived (ctag c)))
| SwIdleDone : server_wants K own SxIdleDone (@RetEvent (server_machine K) SeIdleDoneReceived)
| SwAuth b ca : dec_command K b = DecOk [] (command_of_authenticate ca) ->
    server_wants K own (SxAuth b) (@RetEvent (server_machine K) (SeCommandAuthenticateReceived ca))
| SwAuthData b d : dec_authdata K b = DecOk [] d ->
    server_wants K own (SxAuthData b) (@RetEvent (server_machine K) (SeAuthenticateDataReceived d)).
