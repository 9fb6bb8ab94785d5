# Formal model of `imap-next` (duesee/imap-flow)

`/repo` is read as text. The model is written in Rocq/Coq 8.16.1 with the standard
library only; it lives in `rocq/theories`. Properties are listed in
`properties.jsonl` (C01, C02, ...), their status in `MANIFEST.json`, mutation
experiments in `seeded/LOG.jsonl`.

## Trusted base

* The Coq kernel (8.16.1) and `coqchk`.
* Axioms: none of our own. `Print Assumptions` follows every theorem of the
  `Properties*.v` files; every one reports "Closed under the global context".
* `vcheck` also lists seven axioms of the standard library's ssreflect support
  (`Coq.ssr.ssrunder.Under_rel.*`, fields of a sealed module) because loading `lia` loads
  that library. No theorem here depends on them.
* The transcription of the Rust code to Gallina. Every definition of a model file
  cites the file and lines it models. What is modelled:
  `src/{lib,handle,receive,client_send,client_receive,client,server_send,server_receive,server,types,stream}.rs`,
  `tag-generator/src/lib.rs`, `proxy/src/{util,proxy,main}.rs`, of `proxy/src/config.rs` the data, the
  defaults, the addresses and `Display`, `examples/*.rs`, and `integration-test/{src,tests}/*.rs`.
* What is not modelled: the crates `imap-codec`, `imap-types`, `rustls`, `tokio`,
  `bytes`, allocation, logging/tracing, `Debug` and other `Display` implementations, program
  arguments, TOML parsing, reading of certificates and construction of the TLS configuration.

### How the environment of the code is represented

* `imap-codec` is a record `Codecs` of arbitrary functions (decoders and encoders).
  All theorems quantify over it. Where a theorem needs a law of the codec (e.g. an
  AUTHENTICATE command encodes to a single line; decoding inverts encoding), the law
  is an explicit hypothesis of the theorem, and `ToyCodec.v` gives a concrete codec
  that satisfies all laws, so no theorem is vacuous.
* Messages: commands, responses, greetings, capabilities are data types with the
  cases that the code distinguishes; the remaining payload is opaque bytes.
* Panics (`assert!`, `unreachable!`, `unwrap`, slices out of range) are explicit
  results. Loops are given fuel, running out of fuel is a separate result, and
  theorems exclude it.
* `usize` positions are `nat`, `u32`/`u64` values are `N`; wrap-around is modelled where
  the code wraps (handles, tags).
* Asynchronous I/O (tokio) is an arbitrary script of results of reads and writes and of
  cancellation at await points.

## Architecture

| file | content |
|------|---------|
| `Base.v` | bytes, lines, slices |
| `Types.v` | messages, events |
| `Codec.v` | codec record, laws |
| `Handle.v`, `HandleProc.v`, `TagGen.v` | generators, processes that use them |
| `Receive.v` | `ReceiveState` |
| `ClientSend.v`, `Client.v` | client |
| `ServerSend.v`, `Server.v` | server |
| `Spec*.v` | specifications, independent of the model |
| `ReceiveProofs.v` | framing of `ReceiveState` |
| `ClientRecv.v` ... `ClientThms.v` | client: simulation by a transition system, invariants, proofs |
| `ServerRecv.v` ... `ServerThms.v` | server: likewise |
| `ToyCodec.v`, `ToyLaws.v` | instance used in the examples, its laws |
| `*Examples.v`, `*Refute.v` | concrete runs, counterexamples |
| `IdProofs.v`, `HandleRuns.v` | proofs about generators |
| `Stream.v`, `SpecStream.v` | `Stream`: futures cut at await points, environment script; vocabulary, laws of TLS sessions |
| `StreamProofs.v`, `StreamThms.v`, `StreamUpgrade.v` | stream without TLS |
| `StreamTls.v`, `StreamTlsSend.v`, `StreamStuck.v`, `StreamCipher.v`, `ToyTls.v` | stream with TLS: receiving, sending, termination; instance of the laws |
| `StreamMachine.v`, `StreamState.v` | `Client` and `Server` as states of a stream; inside a stream they run as they do alone |
| `StreamEvents.v`, `StreamServer.v` | events are returned; what a server in a stream writes |
| `ProxyUtil.v`, `Proxy.v`, `SpecProxy.v` | proxy: capability filters, the loop and its two handlers; vocabulary |
| `ProxyFilter.v`, `ProxyEffect.v`, `ProxyProofs.v`, `ProxyInv.v`, `ProxyRuns.v`, `ProxyWire.v` | proofs about the proxy |
| `System.v`, `SpecSystem.v` | a `Client` connected to a `Server` by two byte queues; vocabulary and assumptions |
| `SystemAbs.v`, `SystemResp.v`, `SystemLog.v`, `SystemPos.v`, `SystemStage.v`, `SystemServer.v`, `SystemClient.v`, `SystemThms.v` | proofs about the composition: product of the two transition systems, joint invariant |
| `SpecSystemLive.v`, `SystemLive.v`, `SystemGreet.v`, `SystemSettle.v` | the composition without its applications: no panics, termination, the final states |
| `Net.v`, `SpecNet.v` | two streams connected by a network; vocabulary |
| `NetProofs.v`, `NetSystem.v`, `NetApp.v`, `NetRest.v`, `NetThms.v`, `NetLive.v` | proofs about connected streams: conservation, reduction to `System.v`, what the applications see, termination |
| `NetStall.v`, `SpecViews.v`, `SystemViews.v`, `NetViews.v` | when a server in a stream stalls; what the applications see |
| `Relay.v`, `SpecRelay.v` | client, proxy and server; vocabulary |
| `RelayProofs.v`, `RelayTalk.v`, `ClientFit.v`, `RelayFit.v`, `RelayGlue.v`, `RelayInv.v`, `RelayOrder.v`, `RelaySteps.v`, `RelayOrderly.v`, `RelayThms.v`, `RelayEnd.v` | proofs about it: the two connections, the invariant that glues them, the exchange from end to end |
| `RelayPassed.v` | what the proxy sends to its client comes from the server |
| `RelayWork.v`, `RelayLive.v`, `RelayCalm.v` | client, proxy and server without the applications: termination, the final states |
| `Properties*.v` | final theorems, examples, `Print Assumptions` |
| `Options.v`, `OptionsProofs.v` | `Options` of the server |
| `Apps.v`, `SpecApps.v` | the example programs; vocabulary |
| `AppsProofs.v`, `AppsClient.v`, `AppsServer.v`, `AppsStd.v` | proofs about them: invariants of programs, one file per kind |
| `AppsSays.v`, `AppsNet.v`, `AppsPairs.v` | what the servers say; two programs connected; at rest |
| `AppsLive.v` | connected programs come to rest, or go on |
| `Testers.v`, `Tests.v` | helpers of the integration tests, the tests |
| `SpecTests.v`, `TesterProofs.v`, `TestRuns.v` | what it means that a test passes; checked search of all schedules |
| `TestChecks.v`, `TestsClient.v`, `TestsServer.v`, `TestsServer2.v`, `TestsPair.v` | the searches |
| `TestSizes.v` | the test with the large messages, for every size |
| `Service.v`, `SpecService.v`, `ServiceProofs.v`, `ServiceHandles.v`, `ServiceDiffer.v` | the program around the proxy |

Machines are run by lists of API calls; a run yields a chronological *log* of calls,
results and consumed messages. Specifications are predicates on logs.

## Properties

Framing

* C01 Chunking. `next` with a longer buffer returns the same unless it asked for input;
  asking for input and then adding bytes equals adding bytes first. Induction over the
  schedule for an arbitrary reactive application. Server: refutation of the strict form,
  proof of the two-sequence form.
* C02 Partition: invariant on logs: `concat inputs = concat consumed ++ unread`.
* C03 Framing: spec relation `scan` (first LF ends a line, announced and accepted
  literals are skipped verbatim); invariant connecting `seen_bytes`/`next_fragment` to it.
* C04 corollary of C03. C05 from C03 with "first max bytes" formulation. C06 invariant.
* C07 characterisation of the states in which NeedMoreInput is returned; refutation for
  the server.
* C08 fuel bound lemmas; measure on drain; refutation for limit 0.
* C09 panic-freedom by invariants, codec laws as hypotheses.

Client

* C10-C17, C20: conversation grammar: the projection of the log to what is sent and
  reported is a concatenation of complete words of a small grammar, one word for each
  command in enqueue order, followed by a prefix of a word. Induction over runs.
* C18 API guards read off the log. C19 event/response correspondence.

Server

* C21, C22 outputs and sent events are determined by the log of enqueued responses.
* C23 from the log of literals. C24, C25: the mode is a function of the log.

Generators: C26, C27, C41 by invariants on interleavings; injectivity of decimal printing.

Composition: C28-C30, C40: `System.v` connects the outputs of a client and a server to the
inputs of the other by queues of bytes; an arbitrary script interleaves calls of the two
applications and deliveries of any number of bytes. Assumptions (`orderly` in
`SpecSystem.v`): the decoders invert the encoders for the messages that occur; literals sent
without asking and all lines respect the limits of the server; the tags of the client's
commands differ; the server's application follows the protocol (`polite`). For each of
limits, tags and politeness there is a run that violates only this one and in which the
property fails. The proof is one invariant that relates the position of the client in its
command, the bytes in flight in both directions and the position of the server.
* C28 the messages that the server takes are the requests of the client.
* C29 when both sides wait and nothing is in flight, the client waits for no literal, and
  AUTHENTICATE/IDLE can be continued by one of the applications. Refuted without limits: the
  server discards a line that is too long, with its announcement, and answers nothing.
* C30 needs only the codec law, as far as reading goes; what is reported needs `orderly`.
* C40 refuted for a rejected literal sent without asking and for a literal that crosses
  `max_command_size` (even a synchronizing one); otherwise from C28.
* C50 projection of the runs of the composition to runs of the two sides; C09.
* C51 a measure that decreases lexicographically: what the client still has to send; what is
  under way to the server or unread or unsent there; what is under way to the client or
  unread there. The final states are exactly those in which both sides ask for input and
  nothing is under way, so that C28-C30 give their contents. Refuted for
  `max_command_size` 0.

Stream: C31-C35, C42-C44, C70: `next` and `flush` are cut at their await points; an arbitrary
script of actions (bytes read, bytes accepted, errors, cancellation, calls by the
application) drives them. Conservation is an invariant over steps. rustls is a record of
arbitrary functions; laws (`tls_receives`, `tls_sends`, `tls_finite`) are hypotheses with a
toy instance. Not modelled: the handshake, the split of the socket, wakers and polling order
(an action may happen whenever the future waits for it).
* C32 is refuted in its strict form: reading in `select!` or dropping the future lets
  `CommandSent` be reported before the bytes are written. Proved: written after `flush`.
* C34 is refuted for sessions that return `Ok(0)` after close_notify. Proved: terminates for
  sessions that report `WouldBlock`.
* C42: an output larger than the plaintext buffer of the session (rustls: 64 KB) is cut, and
  still reported as sent by the next event.
* C43: a session with unread plaintext at the end of the handshake is never read.
* C44: buffers dropped by `From<Stream> for TcpStream`.
* C70: the session is wrapped in one that records the bytes it takes and emits (`recorded`); both
  runs are related step by step. Refuted: plaintext collected by `decrypt` before an error.

* C47 events and errors: pairing of `State::next` and return, an invariant of every step.
* C49 a server in a stream: order of outputs (C21) and conservation (C31). Refuted in its
  strict form: after one of its own responses (to a literal) `Server::next` asks for input
  although an application response is enqueued (C07), and the stream waits for input only.

Connected streams: C52-C55: `Net.v` connects the sockets of two streams by queues of bytes;
either without TLS or with sessions that understand each other (`tls_link`: the laws of C33
and C34 in both directions, with a toy instance).
* C52 conservation from C31 (C33, C34); causality because it holds for every prefix of a
  run. Two causally connected logs of a client and a server are a run of `System.v`
  (`joint_run`), so the streams do not matter. Refuted after an error of the session.
* C53, C54 from C28-C30, C40 for this run, restricted to what the applications see.
* C55 from C51: every action of a stream makes progress of `System.v`, or moves bytes, or
  begins to wait. Not proved with TLS.
* C56 from the joint invariant of C28-C30: what the client's application saw determines the
  state of its current command, and the server takes requests in order. A status completes a
  command that the server has taken completely, so its end was reported to the client before.

Proxy: the two `Stream`s of the proxy, with an arbitrary script of socket actions for each.
Not modelled: acceptor, connector and TLS setup, parsing of the configuration.
`CommandContinuationRequestBasic::new(..).unwrap()` and `Status::bad(..).unwrap()` with the
constant texts are assumed not to fail.
* C36 list lemmas.
* C37 refuted for the four calls that pass responses on unfiltered; proved for the rest.
* C38 projection of the log to calls and events; both streams are runs of a client and of a
  server, so C01-C35 apply to them.
* C39 refuted: two panics are reachable (authentication data that the server did not ask
  for; a tagged status after IDLE was accepted). Proved: no others.
* C45 refuted: a BYE followed by the end of the connection is not delivered.
* C46 by an invariant that relates the end of the loop to the log.
* C48 from C38 and C49; the exception of C49 is reachable in the proxy.

Client, proxy and server: C57-C61: `Relay.v` connects a client to the proxy and the proxy to a
server. Assumptions (`relay_orderly` in `SpecRelay.v`): those of C28 for what the client sends
and what the server answers, and for what the proxy makes of it (round trip of the reduced
responses and of the proxy's own texts). With TLS, only runs in which no session reports an
error and no stream panics or loops forever (`linked`). By C57_passed the part about what the
proxy sends follows from the part about the ends (`ends_orderly`) if encoders and decoders agree
about everything that the proxy may make of the server's responses (`relayable`).
* C57 projection of runs. The proxy is polite towards the client, and has distinct tags towards
  the server, by induction over the run: an invariant (`ginv`) relates what the proxy was told
  on one side to what it has done on the other; C53 and C56 for one connection up to now give
  the assumptions of the other for the next step.
* C58 the two panics contradict `ginv`; a malformed message contradicts the round trip.
  Refuted for a server that ends IDLE before "DONE". That the proxy ends only with a lost
  connection also needs decoders that leave no trailing bytes, and no infinite loop.
* C59, C60 from C53, C54 for both connections and `ginv`. What a server that rejects a literal
  may leave unsent (C49) may also be left in the proxy (`late` in C60_rest).
* C61 by a lexicographic measure of nine numbers: bytes that client and server can still produce
  or consume, bytes in the networks and buffers, responses and commands held by the proxy, and
  the positions of the futures (`weighs` in `RelayLive.v`). A state in which nothing can happen is
  at rest: the proxy has not ended (C58), and has its greeting (C54 for the connection to the
  server).

Options and the program around the proxy: C62, C63.
* C62: `Options.v` has the fields as in the code (continuation requests, not texts), so that the
  `unreachable!` and `unwrap` in src/server.rs:55-113, 255-262 and 293-302 are visible. Invariant:
  both fields are valid and of the basic form. What imap-types accepts is an arbitrary predicate.
  The limits: arithmetic for `cmd_fits`, the assumption of C40; the counterexample is that of C40.
* C63: `Service.v`: all services of a configuration, each with its listener and the tasks of its
  clients. A step is a step of one listener or of one task; binding, accepting, handshakes,
  connecting and loading the root certificates are single steps with arbitrary outcome. Projection
  of runs to one task. Each conversation takes the ids of its two handle generators from the
  two process-wide counters; `ServiceHandles.v` relates the order in which they are taken to the
  conversations (C63_handles); `ServiceDiffer.v` concludes that their handles differ.

Example programs: C64-C67. `Apps.v`: a program waits for `Stream::next` (two also for a line
typed by the user); what it does on an event is a tree of calls. `psteps` relates the log of a
stream to the state of the program. Not modelled: printing, connecting, the construction of the
constant commands and texts (assumed valid), errors of reading lines. `rand::random()` is
arbitrary. client_std.rs has no `Stream`; its calls of the client and of the socket are modelled
directly (`ststeps`), `write_all` as one step.
* C64, C65 by an invariant for each program over what it has seen and done (`pinv`); that calls
  are accepted and handles agree follows from C03-C08, C16, C20-C22. Returning, waiting and
  stalling are read off the invariant.
* C66: what a server program says follows from what it is told (`AppsSays.v`), which by C53 is what
  the client program enqueued; by induction over the run the pair meets the assumptions of C53-C56
  (`pair_orderly`). At rest, C54 says that everything has arrived; with the invariants of C65 the
  programs then have nothing left to answer. For AUTHENTICATE the numbers of requests for data,
  of data and of answers contradict each other. That the programs come to rest (`AppsLive.v`):
  between two calls of the programs C55 applies; a program calls only after one of a few events,
  whose number is bounded by C53.
* C67 the same; at the end of the input `next` asks for more input again (the client is `dry`).

Integration tests: C68, C69. `Testers.v`: a test is a list of phases (`run2`, `run2_and_select`),
each with a list of instructions for two sides (mock, client tester, server tester); a schedule
chooses which side is polled, how many bytes a side reads or writes, and when the next phase
begins. Not modelled: connecting, the timeout (a hang in the model is a timeout), errors of the
socket, tracing. Lines of up to 10 MiB have a few bytes here, the network then holds 3 bytes.
* C68: a depth-first search (`dfs`) builds a table of states with ranks and gives up at a panic or
  a dead end; `searched_passes` proves that its success implies `always_passes`. Of the infinitely
  many choices only finitely many differ (`succs_all`), and writing several bytes is the same as
  writing them one by one (`write_splits`).
* C69: explicit schedules, symbolic in the size of the messages and of the network
  (`TestSizes.v`: steps of the two sides for every codec; a step that is possible in a network is
  possible in every larger one); the search without the test for dead ends for the absence of panics.
