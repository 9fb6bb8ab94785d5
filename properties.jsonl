{"id": "C01", "title": "Received messages do not depend on how the input is chunked", "statement": "Feed the same byte stream to a Client (or Server) split into chunks in any way, feeding a chunk only when `next` asks for more input, with an application that reacts only to what `next` returns. The sequence of events, errors and output bytes returned by `next` is the same for every chunking. (Holds for the Client. For the Server it holds for applications that make no call between an output or a LiteralTooLong error and the following call of `next`; for other applications the relative order of an output and a received message can depend on the chunking when a response is enqueued behind an internally generated one; see refutation.)", "quantifier": "every byte stream, every pair of chunkings of it, every reactive application (Server: as restricted in the statement), every codec, every reachable start state", "why_tests_cant": "There are exponentially many chunkings of a stream and unboundedly many streams; a test samples a few split points.", "anchors": ["src/receive.rs: ReceiveState::next, progress_line, progress_literal, find_crlf", "src/client.rs: Client::next, enqueue_input", "src/server.rs: Server::next, enqueue_input"]}
{"id": "C02", "title": "Input bytes are partitioned exactly into messages", "statement": "At every moment the bytes given to `enqueue_input` so far equal, in order, the raw bytes of the messages delivered or discarded so far followed by the not yet consumed bytes: no byte is lost, duplicated or reordered, also across errors and across switches of the expected message kind (greeting to response, command to authenticate data, IDLE and back).", "quantifier": "every sequence of API calls on a Client or Server", "why_tests_cant": "Must hold after every history of calls, errors and codec switches.", "anchors": ["src/receive.rs: finish_message, discard_message, change_codec", "src/client_receive.rs: change_state", "src/server_receive.rs: change_state"]}
{"id": "C03", "title": "Every delivered message is the decoding of one framed message", "statement": "Each event or error that reports received data corresponds to one frame of the input: lines ending at the first LF, with each announced and accepted literal taken verbatim for its announced length (so line feeds in literal data do not end a line), and the reported message (or error) is exactly the codec's verdict on that frame. Discarded bytes reported in an error are exactly that frame.", "quantifier": "every sequence of API calls, every codec, every literal content", "why_tests_cant": "Literal data may contain any bytes including line ends; only a proof covers all of them with all buffer states.", "anchors": ["src/receive.rs: progress_line, progress_literal, start_literal", "src/client.rs: progress_receive", "src/server.rs: progress_receive"]}
{"id": "C04", "title": "Line ending discipline", "statement": "With `crlf_relaxed == false` a line not terminated by CR LF is never decoded: it is reported as ExpectedCrlfGotLf; a line terminated by CR LF never raises that error. With `crlf_relaxed == true` ExpectedCrlfGotLf never occurs.", "quantifier": "every line, every buffer split (also between CR and LF), both option values, client and server", "why_tests_cant": "The split between CR and LF across reads, and the position after a literal, must be covered for all buffers.", "anchors": ["src/receive.rs: find_crlf, progress_line"]}
{"id": "C05", "title": "Server command size limit", "statement": "The server never delivers a command, authenticate data or DONE whose raw size exceeds `max_command_size`; CommandTooLong is raised exactly when the first `max_command_size` bytes of the unconsumed input contain no complete message, and then exactly these `max_command_size` bytes are discarded.", "quantifier": "every limit, every input, every chunking", "why_tests_cant": "Boundary behaviour at every limit value and every message shape (line or literal crossing the limit).", "anchors": ["src/receive.rs: max_readable_bytes, progress_line, progress_literal", "src/server.rs: Options::max_command_size, Error::CommandTooLong"]}
{"id": "C06", "title": "Server asks for more input only while below its size limit", "statement": "If `Server::next` returns NeedMoreInput while a command, authenticate data or DONE is expected, fewer than `max_command_size` unconsumed bytes are buffered, so a driver that feeds chunks of at most k bytes on demand never makes the buffer exceed max_command_size + k. (While waiting for idle_accept/idle_reject the claim fails: see the refutation.)", "quantifier": "every sequence of API calls", "why_tests_cant": "A bound on memory for every input history.", "anchors": ["src/receive.rs: progress_line, progress_literal", "src/server.rs: progress_receive"]}
{"id": "C07", "title": "No lost wake-up: NeedMoreInput means nothing else can be done", "statement": "If `next` returns NeedMoreInput then the unconsumed input contains no complete message (for the server: unless it waits for idle_accept/idle_reject), and there is nothing to send: no queued command that could be started, no queued response and no literal, authenticate data or DONE whose prerequisites are met. (Holds for the Client. False for the Server: a response enqueued behind an internally generated literal acknowledgement or rejection is left in the queue while NeedMoreInput is returned; see refutation.)", "quantifier": "every reachable state of Client and Server", "why_tests_cant": "A progress claim about all reachable states.", "anchors": ["src/client.rs: Client::next", "src/server.rs: Server::next", "src/client_send.rs: ClientSendState::next"]}
{"id": "C08", "title": "`next` always returns", "statement": "`Client::next` and `Server::next` terminate on every state: their loops are bounded by the buffered input; and only finitely many consecutive calls of `next` without new input or API calls happen before NeedMoreInput is returned. (The second part fails for a server with max_command_size = 0, which reports CommandTooLong forever; see refutation.)", "quantifier": "every state, every codec, every buffer content", "why_tests_cant": "Termination for all inputs cannot be tested.", "anchors": ["src/client.rs: Client::next, progress_receive", "src/server.rs: Server::next", "src/receive.rs: ReceiveState::next"]}
{"id": "C09", "title": "No panic in Client and Server", "statement": "With a codec that honours its contract (a decoded message consumes the whole frame; AUTHENTICATE, IDLE, authenticate data and DONE encode to a single line) no sequence of API calls makes Client or Server panic: no slice index is out of range, and no assert!, unreachable! or unwrap in client.rs, server.rs, receive.rs, client_send.rs, server_send.rs, client_receive.rs, server_receive.rs is reached.", "quantifier": "every sequence of API calls, every input, every option value", "why_tests_cant": "Reachability of a panic over all histories.", "anchors": ["src/receive.rs", "src/client.rs", "src/server.rs", "src/client_send.rs", "src/server_send.rs"]}
{"id": "C10", "title": "Commands are sent in the order they were enqueued, one at a time", "statement": "The client's output stream is the concatenation, in enqueue order, of what was sent for each command: bytes of different commands never interleave and a command is started only after its predecessor was sent completely, rejected, or (AUTHENTICATE, IDLE) its exchange was finished.", "quantifier": "every sequence of enqueue_command, enqueue_input, next, set_authenticate_data, set_idle_done", "why_tests_cant": "Ordering over all interleavings of API calls and server behaviour.", "anchors": ["src/client_send.rs: enqueue_command, next, QueuedMessage::start", "src/client.rs: enqueue_command"]}
{"id": "C11", "title": "A command reported as sent was emitted completely and verbatim", "statement": "When CommandSent is reported for a regular command, the bytes emitted for it are exactly its encoding, all fragments in order.", "quantifier": "every command (any number of line/literal fragments), every history", "why_tests_cant": "All fragment sequences and all places where the exchange may be suspended.", "anchors": ["src/client_send.rs: CommandState::push_to_buffer, finish_sending"]}
{"id": "C12", "title": "Synchronizing literals are never sent before the server agreed", "statement": "The client emits no byte of a synchronizing literal before it received a command continuation request after having emitted everything that precedes the literal. Non-synchronizing literals are emitted without waiting.", "quantifier": "every command, every position of the literal, every server behaviour including early or repeated continuation requests", "why_tests_cant": "Requires all interleavings of server responses with sending.", "anchors": ["src/client_send.rs: push_to_buffer, literal_continue, finish_sending", "src/client.rs: progress_receive"]}
{"id": "C13", "title": "A rejected command stops exactly at the pending literal", "statement": "CommandRejected is reported only when a tagged BAD with the command's own tag arrives while the client waits for permission to send a synchronizing literal of this command; nothing of the command after that point is ever emitted; OK, NO and statuses with other tags do not abort it.", "quantifier": "every status, every fragment position, every history", "why_tests_cant": "All combinations of status kind, tag and sending progress.", "anchors": ["src/client_send.rs: maybe_terminate", "src/client.rs: Event::CommandRejected"]}
{"id": "C14", "title": "Every handle is resolved at most once, in order, with its own command", "statement": "Terminal events (CommandSent, CommandRejected, AuthenticateStatusReceived, IdleRejected, IdleDoneSent) occur in enqueue order, at most one for each handle, and carry the handle returned by enqueue_command together with exactly the command that was enqueued under it.", "quantifier": "every sequence of API calls", "why_tests_cant": "At-most-once over all histories.", "anchors": ["src/client_send.rs: ClientSendEvent, ClientSendTermination", "src/client.rs: Event"]}
{"id": "C15", "title": "Nothing is sent before the greeting", "statement": "The client emits no byte and starts no command before GreetingReceived was reported; the greeting is reported at most once and precedes every other event.", "quantifier": "every sequence of API calls, every input", "why_tests_cant": "Over all inputs including malformed greetings.", "anchors": ["src/client.rs: progress_send, progress_receive", "src/client_receive.rs"]}
{"id": "C16", "title": "AUTHENTICATE exchange", "statement": "After AUTHENTICATE is emitted (AuthenticateStarted), authenticate data is emitted exactly once for each accepted set_authenticate_data call, each of which was preceded by its own AuthenticateContinuationRequestReceived; the exchange ends exactly with the first tagged status carrying the command's tag; no other command is started in between.", "quantifier": "every server behaviour, every sequence of API calls", "why_tests_cant": "Over all interleavings of continuation requests, statuses and API calls.", "anchors": ["src/client_send.rs: authenticate_continue, set_authenticate_data, maybe_terminate"]}
{"id": "C17", "title": "IDLE exchange", "statement": "DONE is emitted at most once, only after set_idle_done succeeded, which is possible only after the server accepted IDLE with a continuation request (IdleAccepted); no other command is emitted between IDLE and the end of the exchange (IdleDoneSent or IdleRejected).", "quantifier": "every server behaviour, every sequence of API calls", "why_tests_cant": "Over all interleavings.", "anchors": ["src/client_send.rs: idle_continue, set_idle_done, maybe_terminate"]}
{"id": "C18", "title": "set_authenticate_data and set_idle_done are accepted exactly when expected", "statement": "set_authenticate_data succeeds exactly when the last step of the running AUTHENTICATE exchange was an AuthenticateContinuationRequestReceived not yet answered; otherwise it returns the data unchanged. set_idle_done succeeds exactly when IDLE was accepted and DONE not yet triggered. Refused calls have no effect.", "quantifier": "every reachable state", "why_tests_cant": "Over all histories.", "anchors": ["src/client_send.rs: set_authenticate_data, set_idle_done", "src/client.rs"]}
{"id": "C19", "title": "Every response reaches the application exactly once", "statement": "Every response decoded by the client produces exactly one event that contains it, in order of arrival, except a continuation request that releases a literal, which is consumed silently.", "quantifier": "every input, every history", "why_tests_cant": "Over all inputs and sending states.", "anchors": ["src/client.rs: progress_receive"]}
{"id": "C20", "title": "Malformed input does not disturb sending", "statement": "A malformed message or wrong line end from the peer changes neither what the client/server will send nor the exchange in progress: only the offending frame is dropped.", "quantifier": "every malformed input in every state", "why_tests_cant": "Over all states and inputs.", "anchors": ["src/client.rs: progress_receive", "src/server.rs: progress_receive"]}
{"id": "C21", "title": "Responses are sent in the order they were enqueued, greeting first", "statement": "The server's output stream is the encoding of the greeting followed by the encodings of the responses in the order in which they were enqueued (by the application or, for literals, internally), each complete and contiguous; nothing else is ever emitted.", "quantifier": "every sequence of API calls and inputs", "why_tests_cant": "Over all interleavings.", "anchors": ["src/server_send.rs: next, enqueue_response, push_encoded_to_buffer", "src/server.rs: enqueue_*"]}
{"id": "C22", "title": "ResponseSent is reported exactly once for each application response", "statement": "Each enqueued response is reported by exactly one ResponseSent with its handle and value, in order, directly after its bytes were emitted; internally generated responses are never reported; GreetingSent is reported once, first.", "quantifier": "every sequence of API calls", "why_tests_cant": "Over all histories.", "anchors": ["src/server.rs: progress_send", "src/server_send.rs"]}
{"id": "C23", "title": "Literal acknowledgement by the server", "statement": "For every synchronizing literal of length at most max_literal_size the server enqueues exactly one continuation request with the configured accept text; for non-synchronizing literals none. A synchronizing literal exceeding the limit triggers exactly one tagged BAD with the command's tag and the configured reject text, the announcing line is discarded and LiteralTooLong is reported.", "quantifier": "every input, every limit", "why_tests_cant": "Boundary of every limit, number of literals in a command unbounded.", "anchors": ["src/server.rs: progress_receive"]}
{"id": "C24", "title": "Server IDLE flow", "statement": "After IdleCommandReceived the server consumes no further input until idle_accept or idle_reject; after idle_accept the next line is read as DONE; IdleDoneReceived returns to commands. idle_accept and idle_reject succeed exactly in this situation and otherwise return their argument unchanged without effect.", "quantifier": "every sequence of API calls and inputs", "why_tests_cant": "Over all histories, including pipelined input after IDLE.", "anchors": ["src/server.rs: idle_accept, idle_reject, progress_receive", "src/server_receive.rs"]}
{"id": "C25", "title": "Server AUTHENTICATE flow", "statement": "After CommandAuthenticateReceived every line is read as authenticate data until authenticate_finish; authenticate_continue and authenticate_finish succeed exactly in this situation and otherwise return their argument unchanged without effect.", "quantifier": "every sequence of API calls and inputs", "why_tests_cant": "Over all histories.", "anchors": ["src/server.rs: authenticate_continue, authenticate_finish, progress_receive"]}
{"id": "C26", "title": "Handles are unique", "statement": "Any two handles generated in a process by any generators differ, as long as fewer than 2^64 handles per generator and fewer than 2^64 generators are created, in every interleaving of threads; handles from different Clients (Servers) differ.", "quantifier": "every interleaving of generator creation and handle generation", "why_tests_cant": "Unbounded number of threads and schedules; wrap-around cannot be reached by tests.", "anchors": ["src/handle.rs: HandleGenerator::generate, HandleGeneratorGenerator::generate"]}
{"id": "C27", "title": "Generated tags are unique", "statement": "Any two tags generated by any TagGenerators of a process are different strings (below 2^64 generators and tags per generator), with or without the random suffix, whatever the random values are, in every interleaving.", "quantifier": "every interleaving and every random suffix", "why_tests_cant": "Number formatting and separators must be injective for all 2^64 values; schedules unbounded.", "anchors": ["tag-generator/src/lib.rs: TagGenerator::new, generate"]}
{"id": "C28", "title": "End to end: the server receives exactly the commands the client sent", "statement": "Connect a Client and a Server by a byte stream that preserves order (any chunking, any delay). With a codec whose decoder inverts its encoder and limits large enough for the commands, the commands delivered by the server are exactly, in order and unchanged, a prefix of the commands enqueued at the client, and contain every command reported as sent once its bytes have arrived.", "quantifier": "every command sequence with any literals, every chunking and schedule", "why_tests_cant": "State space of two machines and a network.", "anchors": ["src/client.rs", "src/server.rs", "src/receive.rs"]}
{"id": "C29", "title": "No deadlock on literals between Client and Server", "statement": "In the composed system, if everything emitted has been delivered and both sides return NeedMoreInput, then the client does not wait for permission to send a literal: the literal handshake cannot get stuck.", "quantifier": "every reachable state of the composed system", "why_tests_cant": "Deadlock freedom over all schedules.", "anchors": ["src/client_send.rs", "src/server.rs"]}
{"id": "C30", "title": "End to end: the client receives exactly the responses the server sent", "statement": "In the composed system the greeting and the responses enqueued at the server are delivered to the client's application in order and unchanged, except the continuation requests that acknowledge literals.", "quantifier": "every response sequence, every chunking and schedule", "why_tests_cant": "State space of two machines and a network.", "anchors": ["src/server_send.rs", "src/client.rs"]}
{"id": "C31", "title": "Stream neither loses, duplicates nor reorders bytes", "statement": "For an unencrypted Stream: the bytes written to the socket followed by the bytes still buffered for writing equal the concatenation of all outputs of the state; the bytes read from the socket equal the bytes handed to the state followed by the bytes still buffered; for every result of partial reads/writes, errors, closing and cancellation of the `next` and `flush` futures at any await point.", "quantifier": "every schedule of reads, partial writes, errors and cancellations", "why_tests_cant": "Unbounded schedules of a nondeterministic environment.", "anchors": ["src/stream.rs: Stream::next, flush, read, write"]}
{"id": "C32", "title": "A sent event implies the bytes were written", "statement": "When Stream::next returns CommandSent (ResponseSent, ...), all bytes of the message have been written to the socket. (False for the code: a completed read in select! lets the state report CommandSent while bytes are still in the write buffer; see refutation.) After a successful flush everything is written.", "quantifier": "every schedule", "why_tests_cant": "Depends on a race between read and write readiness.", "anchors": ["src/stream.rs: Stream::next (select!)"]}
{"id": "C33", "title": "Stream reports a closed connection and never spins on it", "statement": "If the socket signals end of file or accepts no bytes, the pending `next` returns Error::Closed; it never loops without performing I/O, i.e. between two iterations of its loop at least one byte was read or the write buffer was drained.", "quantifier": "every schedule", "why_tests_cant": "Over all schedules.", "anchors": ["src/stream.rs: read, write, Stream::next"]}
{"id": "C34", "title": "TLS decryption loop terminates", "statement": "`Stream::next` over TLS returns control after the peer closed the TLS session cleanly. (False for the code: on close_notify rustls' reader returns Ok(0) forever and the inner loop never breaks; see refutation. It terminates when the reader reports WouldBlock.)", "quantifier": "every behaviour of the TLS reader allowed by its documentation", "why_tests_cant": "Non-termination cannot be observed by a test that finishes.", "anchors": ["src/stream.rs: decrypt"]}
{"id": "C35", "title": "TLS transport is transparent", "statement": "With a TLS layer that delivers the peer's plaintext in order, decrypt hands every available plaintext byte to the state exactly once in order, and encrypt turns each output into TLS records in order without loss; a record is never left behind in the session when control returns.", "quantifier": "every segmentation of records and plaintext chunks", "why_tests_cant": "All record/chunk segmentations.", "anchors": ["src/stream.rs: decrypt, encrypt"]}
{"id": "C36", "title": "The proxy advertises only supported capabilities", "statement": "Capability lists in greetings, data, statuses and continuation requests that pass the proxy's filter contain only supported capabilities, keep exactly the supported ones in order, and are never empty (IMAP4rev1 is substituted). The filter is idempotent.", "quantifier": "every capability list", "why_tests_cant": "Unbounded lists.", "anchors": ["proxy/src/util.rs: filter_capabilities, filter_capabilities_in_*"]}
{"id": "C37", "title": "No unsupported capability reaches the client through the proxy", "statement": "Whatever the server sends, no response enqueued by the proxy for its client carries an unsupported capability. (False for the code: statuses finishing AUTHENTICATE and continuation requests of AUTHENTICATE and IDLE are forwarded unfiltered; see refutation.)", "quantifier": "every server behaviour", "why_tests_cant": "Over all sessions.", "anchors": ["proxy/src/proxy.rs: handle_server_event"]}
{"id": "C38", "title": "The proxy forwards commands and responses faithfully and in order", "statement": "Every command received from the client is enqueued unchanged towards the server in order of arrival; every data/status/continuation response from the server is enqueued towards the client in order, changed only by capability filtering, and rejected commands yield exactly one tagged BAD for their tag.", "quantifier": "every session", "why_tests_cant": "Over all sessions and interleavings of the two directions.", "anchors": ["proxy/src/proxy.rs: handle_client_event, handle_server_event"]}
{"id": "C39", "title": "The proxy does not panic", "statement": "No behaviour of client and server makes the proxy panic. (False for the code: authenticate data sent before the server asked for it, and a tagged status during an accepted IDLE, hit unwrap; see refutations. The unwraps on authenticate_continue, authenticate_finish and idle_accept are proved unreachable.)", "quantifier": "every interleaving of client and server behaviour", "why_tests_cant": "Over all schedules.", "anchors": ["proxy/src/proxy.rs: handle_client_event, handle_server_event"]}
{"id": "C40", "title": "Literal data is never interpreted as a command", "statement": "No byte that the client sent as literal data is ever interpreted by the server as the beginning of a command. (False for the code when a literal is too long: a rejected non-synchronizing literal, or a literal crossing max_command_size; see refutations. True when all literals and commands respect the limits.)", "quantifier": "every input", "why_tests_cant": "Over all literal contents.", "anchors": ["src/server.rs: progress_receive (LiteralMode::NonSync, CommandTooLong)"]}
{"id": "C41", "title": "Generated tags are valid IMAP tags", "statement": "Every tag generated by a TagGenerator (created with Tag::unvalidated) is a valid IMAP tag, i.e. a non-empty string of ASTRING characters other than \"+\", provided the random token (if any) is alphanumeric.", "quantifier": "every interleaving, every counter value and every alphanumeric token", "why_tests_cant": "All 2^64 counter values and all tokens.", "anchors": ["tag-generator/src/lib.rs: TagGenerator::generate"]}
{"id": "C42", "title": "TLS output is never silently cut", "statement": "When next reports a command (response) as sent over TLS, the peer can decrypt all of it once the buffered bytes are written. (False for the code: encrypt uses write_all on a session whose plaintext buffer is limited; if the output exceeds the limit the call fails with WriteZero, the rest of the output is lost, the state is not told, and the following next reports the message as sent; see refutation.)", "quantifier": "every session and output", "why_tests_cant": "Needs outputs larger than the buffer limit and all session behaviours.", "anchors": ["src/stream.rs: encrypt, Stream::next"]}
{"id": "C43", "title": "Plaintext received during the handshake is delivered", "statement": "Plaintext that the TLS session already holds when Stream::tls takes over reaches the state. (False for the code: such a session does not want to read, so decrypt never reads from it and no byte ever reaches the state, whatever arrives later; see refutation. C35 holds for sessions without unread plaintext.)", "quantifier": "every session, every schedule", "why_tests_cant": "Depends on the segmentation of the handshake; over all continuations.", "anchors": ["src/stream.rs: decrypt, Stream::tls"]}
{"id": "C44", "title": "Taking the socket out of a stream loses nothing after flush", "statement": "From<Stream> for TcpStream drops the buffers. For an unencrypted stream, whenever no future runs (or it is suspended), every byte read from the socket has been handed to the state; right after a successful flush every byte of output has been written.", "quantifier": "every schedule", "why_tests_cant": "Over all schedules and cancellations.", "anchors": ["src/stream.rs: From<Stream> for TcpStream, flush"]}
{"id": "C45", "title": "What the server sent before closing reaches the client of the proxy", "statement": "Every response that the proxy received from the server is written to the client before the proxy closes the connection. (False for the code: when the server sends BYE and closes, the response is enqueued, the loop ends, and nothing is written any more; see refutation.)", "quantifier": "every session through the proxy and every continuation", "why_tests_cant": "Depends on the order in which the two sockets become ready.", "anchors": ["proxy/src/proxy.rs: start_conversation, handle_server_event"]}
{"id": "C46", "title": "The proxy ends only for a reason", "statement": "The loop of the proxy ends only when a connection was lost (closed, I/O or TLS error), when the server sent no proper greeting, by one of the two panics of C39, or by an infinite loop inside TLS; while it runs no connection was lost. In particular malformed messages of either side do not end it.", "quantifier": "every codec, both streams, every schedule", "why_tests_cant": "Over all interleavings of two connections and all malformed inputs.", "anchors": ["proxy/src/proxy.rs: start_conversation, handle_client_event, handle_server_event"]}
{"id": "C47", "title": "The stream returns every event and error exactly once, at once", "statement": "For every state driven by Stream, the events and errors produced by State::next are exactly those returned by Stream::next, in order, each immediately after it was produced, even if futures are dropped at any await point.", "quantifier": "every state machine, TLS session and schedule with cancellations", "why_tests_cant": "Over all cancellation points and schedules.", "anchors": ["src/stream.rs: Stream::next"]}
{"id": "C48", "title": "What the proxy writes to its client", "statement": "The bytes written to the client of the proxy are a prefix of the reduced greeting of the server followed by the relayed responses in order, with the responses of the proxy to literals in between. When the proxy waits for input of its client it has written all of it, unless the last thing written is such a response of the proxy itself. (Without this exception the claim is false; see refutation: the proxy waits for both peers although a response for the client is enqueued.)", "quantifier": "every codec, every schedule of both sockets", "why_tests_cant": "Over all interleavings; the failing one needs a response of the server between two polls of the client.", "anchors": ["proxy/src/proxy.rs: start_conversation", "src/stream.rs: Stream::next", "src/server.rs: Server::next"]}
{"id": "C49", "title": "A server in a stream writes what it has before it waits for input", "statement": "A Server in a Stream without TLS writes its greeting and then exactly the responses accepted by its functions in order, with its own responses to literals in between. While Stream::next waits for input only, everything was written, unless the last thing written is a response to a literal. (Without this exception the claim is false; see refutation: next asks for input after an internal response although another response is enqueued, and the stream then waits until the client sends something.)", "quantifier": "every codec, options, schedule", "why_tests_cant": "Over all schedules, cancellations and segmentations.", "anchors": ["src/server.rs: Server::next, progress_send", "src/server_send.rs", "src/stream.rs: Stream::next"]}
{"id": "C50", "title": "A client and a server connected to each other run as they do alone and do not panic", "statement": "When the outputs of a Client are the inputs of a Server and vice versa, each side behaves as in some run of its own (so every property of one side holds for its part of the log), and neither panics, whatever the applications call in whatever order and however the bytes are cut. Assumptions: decoders consume the whole message, and data for AUTHENTICATE and DONE are encoded as one line.", "quantifier": "every codec with these laws, options, interleaving of calls and deliveries", "why_tests_cant": "Over all interleavings of the two applications and all segmentations in both directions.", "anchors": ["src/client.rs: Client", "src/server.rs: Server"]}
{"id": "C51", "title": "A connected client and server come to rest, and then everything was delivered", "statement": "If the applications do nothing but call next, then only finitely many times bytes are delivered or next returns something else than NeedMoreInput (if max_command_size is not 0). In every state something can happen unless nothing is under way, the client asks for input and the server asks for input twice in a row; in the latter state nothing can happen. So every conversation can be continued without the applications to such a state, in which the server has read all requests, the client has reported the greeting, once, and all responses, and no command other than AUTHENTICATE or IDLE is unresolved at the head of the queue.", "quantifier": "every codec with the round trip laws, options, interleaving of calls and deliveries", "why_tests_cant": "Termination and absence of deadlock over all reachable states of both sides.", "anchors": ["src/client.rs: Client::next", "src/server.rs: Server::next", "src/client_send.rs: ClientSendState::next", "src/server_send.rs: ServerSendState::next"]}
{"id": "C52", "title": "Two connected streams carry exactly what the states output", "statement": "When two Streams are connected by byte queues of a network, then without TLS everything one state (Client or Server) has output equals, in order, what the other was given, what its stream buffers, what is under way and what is not written; with TLS the same holds for the plaintext as long as no future returned an I/O error. At every moment a state was given only what the other had output before. Hence a Client and a Server in streams can be replaced by the two connected directly: the same calls with the same results. (After an error of the TLS session bytes can be lost although the command is then reported as sent; see refutation.)", "quantifier": "every codec, pair of TLS sessions that understand each other, segmentation, partial write, cancellation, interleaving", "why_tests_cant": "Over all interleavings of two asynchronous streams, cancellations and segmentations.", "anchors": ["src/stream.rs: Stream", "src/client.rs: Client", "src/server.rs: Server"]}
{"id": "C53", "title": "Requests arrive unchanged through streams, and none is smuggled", "statement": "The events and errors told to the server's application are one per request of the client's application, in order, for a prefix of the requests; each is the request itself, or the error about its literal that exceeds the limit. If no literal exceeds the limit, the events are exactly those of the requests. The client's application is told at most one greeting, that of the server. Every command told to the server's application was enqueued by the client's application.", "quantifier": "every codec with round trip for the messages that occur, TLS or not, options, schedule", "why_tests_cant": "Over all message contents, segmentations and interleavings; smuggling needs adversarial contents of literals.", "anchors": ["src/stream.rs: Stream::next", "src/client.rs: Client::next", "src/server.rs: Server::next"]}
{"id": "C54", "title": "Responses arrive unchanged through streams; at rest everything sent was delivered", "statement": "What the client's application is told are the responses of the server's application in order, interleaved with one rejection per request with a literal that exceeds the limit. When nothing is under way and both next wait for bytes, all requests were reported, the client's application was told the greeting once, the client's application was told exactly the responses reported as sent and the rejections, and only AUTHENTICATE or IDLE can be unresolved at the head of the queue. (Responses that are enqueued after a rejection can be stuck; see refutation.)", "quantifier": "every codec with round trip for the messages that occur, TLS or not, options, schedule", "why_tests_cant": "Over all schedules and contents.", "anchors": ["src/stream.rs: Stream::next", "src/server_send.rs: ServerSendState", "src/client.rs: Client::next"]}
{"id": "C55", "title": "Client and server in connected streams come to rest", "statement": "Without TLS, if the applications only call next again and again and the sockets do not fail, only finitely many things happen in whatever order (if max_command_size is not 0); nothing can happen exactly when nothing is under way and both next wait for bytes; and the assumptions of C53/C54 are preserved. Hence every run can be continued to one in which everything was delivered.", "quantifier": "every codec with these laws, options, schedule, partial writes and reads", "why_tests_cant": "Termination and absence of deadlock over all reachable states.", "anchors": ["src/stream.rs: Stream::next", "src/client.rs: Client::next", "src/server.rs: Server::next"]}
{"id": "C56", "title": "The applications see only events that make sense to them", "statement": "If the server's application follows the protocol, the client's application is never told of a continuation request that does not belong to its AUTHENTICATE or IDLE; every tagged status it is told belongs to a command that it enqueued and that has nothing more to send, and was told before that this command was sent, that it was rejected, or that DONE was sent; AUTHENTICATE is not ended while data is due; IDLE is not rejected after it was accepted. The server's application is given data for AUTHENTICATE only after it asked for it.", "quantifier": "every codec with round trip for the messages that occur, directly connected or through streams with or without TLS, options, schedule", "why_tests_cant": "Over all interleavings of pipelined commands, responses under way and calls of both applications.", "anchors": ["src/client.rs: Client::next", "src/server.rs: Server::next", "src/client_send.rs: ClientSendState", "proxy/src/proxy.rs: handle_client_event, handle_server_event"]}
{"id": "C57", "title": "The proxy between a client and a server is two connected conversations", "statement": "In a run of client, proxy and server, each of the three runs as it does alone, and each of the two connections is a client stream connected to a server stream. If the client's tags are distinct and the server's application is polite, the proxy's two sides are orderly too, so that what is proved about an orderly client connected to a server holds for both connections.", "quantifier": "every codec with round trip for the messages that occur (including the proxy's reduced responses and texts), every options under which the client's commands fit, each connection without TLS or with TLS sessions that understand each other and report no error, every schedule of the three processes and the four networks", "why_tests_cant": "Assume-guarantee reasoning over all interleavings of three processes: the politeness of the proxy towards the client depends on the server being polite and on the client's requests, and conversely.", "anchors": ["proxy/src/proxy.rs: start_conversation, handle_client_event, handle_server_event", "src/stream.rs: Stream::next", "src/client.rs: Client::next", "src/server.rs: Server::next"]}
{"id": "C58", "title": "The proxy does not panic between an orderly client and server", "statement": "Between a client with distinct tags and a polite server no unwrap of the proxy panics, and nobody is told of a malformed message (a server may be told of a literal that is too long). If moreover decoders leave no trailing bytes and no stream of the proxy loops forever, the proxy ends only when a connection is lost. With an impolite server it can panic.", "quantifier": "every codec with round trip for the messages that occur (including the proxy's reduced responses and texts), every options under which the client's commands fit, each connection without TLS or with TLS sessions that understand each other and report no error, every schedule of the three processes and the four networks", "why_tests_cant": "The panics depend on races between the two sides of the proxy; absence is over all schedules.", "anchors": ["proxy/src/proxy.rs: start_conversation, handle_client_event, handle_server_event", "src/stream.rs: Stream::next", "src/client.rs: Client::next", "src/server.rs: Server::next"]}
{"id": "C59", "title": "End-to-end delivery through the proxy", "statement": "Every command, data and DONE that the server's application is told was requested by the client's application, once, in order and unchanged; the client's application is told the responses of the server's application in order, changed only by removing unsupported capabilities or by the proxy's text for rejected commands, and the rejections by the proxy; the client is told at most one greeting, the server's, reduced.", "quantifier": "every codec with round trip for the messages that occur (including the proxy's reduced responses and texts), every options under which the client's commands fit, each connection without TLS or with TLS sessions that understand each other and report no error, every schedule of the three processes and the four networks", "why_tests_cant": "Over all message sequences, chunkings and interleavings of three processes.", "anchors": ["proxy/src/proxy.rs: start_conversation, handle_client_event, handle_server_event", "src/stream.rs: Stream::next", "src/client.rs: Client::next", "src/server.rs: Server::next"]}
{"id": "C60", "title": "Nothing is lost in the proxy when all are at rest", "statement": "When nothing is under way and client, proxy and server wait for bytes: the client's application was told the server's greeting, reduced, once; every request that the proxy did not reject was reported to the server's application, as a message or as a literal that is too long; and the client's application was told exactly the responses that the proxy sent and the rejections by the proxy. What the proxy sent is a prefix of what it received, with at most the permitted changes; after a rejection a rest may stay in the proxy. If no literal exceeds a limit, all responses that the server's application gave reached the client's application. The oldest unresolved command at the client, if any, is AUTHENTICATE or IDLE.", "quantifier": "every codec with round trip for the messages that occur (including the proxy's reduced responses and texts), every options under which the client's commands fit, each connection without TLS or with TLS sessions that understand each other and report no error, every schedule of the three processes and the four networks", "why_tests_cant": "Absence of lost messages and deadlocks over all reachable states of three processes.", "anchors": ["proxy/src/proxy.rs: start_conversation, handle_client_event, handle_server_event", "src/stream.rs: Stream::next", "src/client.rs: Client::next", "src/server.rs: Server::next"]}
{"id": "C61", "title": "Client, proxy and server come to rest without their applications, and then all is delivered", "statement": "Without TLS: if the applications of client and server do nothing, only finitely many steps (polls, writes, deliveries) are possible, in whatever order. If the ends are orderly and the proxy has lost no connection, nothing more is possible exactly when nothing is under way and all wait for bytes; every run can be continued to such a state; the continuation needs no further assumptions; and if no literal exceeds a limit, then every request has been reported to the server's application and the greeting and every response to the client's, and the oldest unresolved command, if any, is AUTHENTICATE or IDLE.", "quantifier": "every codec whose decoders leave no trailing bytes, with round trip for the messages of the ends and for what the proxy may make of them; every options with a non-zero max_command_size under which the client's commands fit; every run without TLS, every schedule", "why_tests_cant": "Absence of livelock and deadlock of three processes over all schedules and all histories.", "anchors": ["proxy/src/proxy.rs: start_conversation, handle_client_event, handle_server_event", "src/stream.rs: Stream::next", "src/client.rs: Client::next", "src/server.rs: Server::next"]}
{"id": "C62", "title": "Options of the server: texts always valid, setters, limits and what they admit", "statement": "Whatever sequence of setters and field writes is applied to Options::default(), nothing panics, both literal texts are valid texts of a continuation request and the getters return them; every value is the one set last (of the texts, the last valid one), or the default; a setter sets exactly its text if it is valid and otherwise returns it and changes nothing; hence the unwraps in the server's answers to literals never panic, and the answers carry exactly the configured texts. The proxy's options are the defaults with its two texts. A command whose literals (number times maximum literal size) and lines fit max_command_size is always framed correctly; with the default limits this holds for commands with one literal of at most 25 MiB and 64 KiB of lines. The documented condition max_literal_size < max_command_size is not enforced, and it is not sufficient: the server grants a literal and then takes part of it for a command.", "quantifier": "every sequence of option changes, every predicate for valid texts that accepts \"...\" (and, for the responses, whose texts are texts of a status), every codec, every command", "why_tests_cant": "Arbitrary sequences of setters with arbitrary texts; the limits interact with every command.", "anchors": ["src/server.rs: Options, set_literal_accept_text, set_literal_reject_text, next_literal_message", "proxy/src/proxy.rs: start_conversation"]}
{"id": "C63", "title": "The proxy program: clients are isolated from each other, services keep listening", "statement": "In every run of the program with any number of services and clients, each conversation is a run of the proxy's conversation by itself with TLS on exactly the configured sides, and with handle generators that no other conversation has (up to 2^64 clients), so that no handle is given in two conversations; a client whose server is not reached sees no byte; errors and panics in one client's task change no other task and no service; a bound service never stops, and the program ends only if no service could be bound. A service without TLS is always ready to accept the next client. Refuted with TLS: because the handshake is a part of accept_client, one client that does not finish it blocks all further clients of the service. Once loading the root certificates has failed, no service that connects with TLS serves another client. The port is what follows the last colon of an address, 993 with TLS and 143 without if none is configured; what is printed of a service at the start determines host, port and whether TLS is used; a key file must contain exactly one readable key.", "quantifier": "every configuration, every schedule of services, clients and network outcomes, every codec and TLS session", "why_tests_cant": "Arbitrary numbers of concurrent clients and arbitrary interleavings.", "anchors": ["proxy/src/main.rs: main, handle_service, handle_client", "proxy/src/proxy.rs: bind, accept_client, connect_to_server, ROOT_CERT_STORE", "proxy/src/config.rs: Bind, Connect, addr_port, Display", "proxy/src/util.rs: load_leaf_key_pem"]}
{"id": "C64", "title": "No assertion of the example programs fails", "statement": "In every run of each of the six example programs on a stream (client.rs, client_authenticate.rs, client_idle.rs, server.rs, server_authenticate.rs, server_idle.rs), with any peer and any results of the socket, with or without TLS, no assert_eq!, unwrap or panic! of the program fails, except the unwrap on an error returned by Stream::next. With the codec laws of C31 and no TLS the library does not panic under any program either.", "quantifier": "every codec, every peer, every socket behaviour, every handle generator, every typed line and random choice", "why_tests_cant": "The assertions depend on what an arbitrary peer sends at arbitrary times.", "anchors": ["examples/client.rs", "examples/client_authenticate.rs", "examples/client_idle.rs", "examples/server.rs", "examples/server_authenticate.rs", "examples/server_idle.rs"]}
{"id": "C65", "title": "What the example programs do", "statement": "client.rs makes one call, to enqueue its command when the greeting arrives, and never returns. client_authenticate.rs enqueues AUTHENTICATE when the greeting arrives, answers each request for data, in order, with its data and then with cancel, and returns exactly on the status that ends the authentication. client_idle.rs enqueues IDLE when the greeting arrives, afterwards at most calls set_idle_done, and returns exactly on a status with the tag of the command after IDLE is over; in particular not when IDLE is rejected. The servers are polite in the sense of C28 and never return; the first event is that the greeting was sent. server.rs answers each regular command with one NO, in order; server_authenticate.rs answers each regular command, AUTHENTICATE and authentication data by one call that is accepted; server_idle.rs enqueues one OK with the tag of the command for each DONE. Each call of a server answers what was just received (server_idle.rs: DONE, or the user), with exactly the texts in the source and with tags that were received. After IDLE, server.rs and server_authenticate.rs report nothing more of the client; after AUTHENTICATE, server.rs and server_idle.rs report no further command.", "quantifier": "every codec, every peer, every socket behaviour, every handle generator, every typed line and random choice", "why_tests_cant": "Statements about every peer, every schedule and unbounded sequences of commands.", "anchors": ["examples/client.rs", "examples/client_authenticate.rs", "examples/client_idle.rs", "examples/server.rs", "examples/server_authenticate.rs", "examples/server_idle.rs"]}
{"id": "C66", "title": "The example programs work with each other", "statement": "When client.rs and server.rs, connected, are at rest (nothing under way, both wait for input), the greeting was reported once, the command was sent and reported to the server once, the server's NO is the only response and was reported to the client and as sent to the server. client_authenticate.rs and server_authenticate.rs are never at rest, so neither waits in vain for the other. When client_idle.rs and server_idle.rs are at rest, the server has been told of IDLE and nothing else, and either the user of the server has not answered IDLE, or it was accepted and the user of the client has not ended it, or it was rejected and the client still waits for a status; the client returns only after it has sent DONE. Each pair meets the assumptions under which C53 to C56 hold. On working sockets, without TLS and as long as nobody types, what two connected programs can do is finite, client.rs with server.rs and client_idle.rs with server_idle.rs stop only at rest or when the client has returned, and client_authenticate.rs with server_authenticate.rs only when the client has returned; those two can go on for ever only if the server never stops asking for data. Meanwhile no program ends in any other way.", "quantifier": "every codec with round trips for the messages that the two programs exchange and within the server's limits, every schedule of the sockets, with or without TLS, every typed line and random choice; for what comes to rest: plain connections, working sockets and the codec laws of C09", "why_tests_cant": "Over all schedules and inputs of both programs; and that something never waits forever cannot be observed.", "anchors": ["examples/client.rs", "examples/client_authenticate.rs", "examples/client_idle.rs", "examples/server.rs", "examples/server_authenticate.rs", "examples/server_idle.rs", "src/stream.rs: Stream::next"]}
{"id": "C67", "title": "client_std.rs: assertions hold, and it spins at the end of input", "statement": "In every run of client_std.rs, with any results of the blocking socket, no assertion or panic! fails except on errors of the socket or of the client (in particular, no output is due before the greeting, where the program would panic); it makes the one call of client.rs and never returns. When the server closes the connection, the program calls read again and again: any number of turns that read nothing is possible, and with nothing but empty reads nothing else happens.", "quantifier": "every codec, every input, every chunking of it", "why_tests_cant": "That a program does not end cannot be tested; the assertion about output depends on every input.", "anchors": ["examples/client_std.rs"]}
{"id": "C68", "title": "The integration tests pass under every schedule", "statement": "Every test of integration-test/tests/client.rs and server.rs, every test of client_server.rs except send_large_messages_in_parallel, and self_test of src/tests.rs, run on the model of Stream, Client and Server with a codec that knows the lines of the tests: whatever the scheduler polls and however the network cuts the bytes, no assertion of the test or of the library fails, the test cannot go on for ever, and it does not get stuck before it returns. The mock's receive returns exactly if the expected bytes came, keeps what follows them, and panics exactly if what came can no longer become them. The functions of the testers that wait for something return exactly if next returned that, and panic otherwise.", "quantifier": "every schedule of the two futures of a phase and of partial reads and writes; each test with the parameters it uses (long lines and large limits scaled down, with a network that holds 3 bytes)", "why_tests_cant": "A run of a test takes one schedule and one way of cutting the bytes.", "anchors": ["integration-test/tests/client.rs", "integration-test/tests/server.rs", "integration-test/tests/client_server.rs", "integration-test/src/mock.rs", "integration-test/src/client_tester.rs", "integration-test/src/server_tester.rs", "integration-test/src/runtime.rs", "src/tests.rs"]}
{"id": "C69", "title": "send_large_messages_in_parallel can hang", "statement": "The test send_large_messages_in_parallel of client_server.rs does not pass under every schedule: next reports CommandSent (ResponseSent) once a read has completed, even if nothing has been written; the future then returns and is no longer polled, and the other side waits for ever, in the second but last phase if the network is full, in the last phase even if the network has room, because receive_status returns while the command is still in the write buffer (refuted: always_passes; also for a schedule in which both sides take turns). This does not depend on the size of the messages nor on the room in the network. It never panics before the timeout and never goes on for ever, and it returns if both sides have written their message before the other has read it.", "quantifier": "every size of the messages and every network that holds at least one byte for the existence of a hanging schedule; concrete schedules for the hang when taking turns, for that of the client, and for the return, with 15 bytes of padding; every schedule for the absence of panics, with 1 byte of padding", "why_tests_cant": "The test passes or times out depending on the scheduler and on the sizes of the socket buffers.", "anchors": ["integration-test/tests/client_server.rs", "integration-test/src/runtime.rs", "src/stream.rs"]}
{"id": "C70", "title": "Ciphertext is conserved, plaintext of a failing decrypt is not", "statement": "For every TLS session and every run of a Stream with TLS, also after I/O and TLS errors and dropped futures: the bytes taken by the session followed by those in the read buffer are the bytes read from the socket, and the bytes written to the socket followed by those in the write buffer are the bytes emitted by the session. The plaintext that decrypt returns is also delivered, however the ciphertext was cut (false for the code: decrypt returns early on an error and drops the plaintext that it collected before; whether a message in front of a corrupt record is reported depends on how the bytes are read; see refutation).", "quantifier": "every session (arbitrary functions), every state, every script of reads, writes, errors, drops and calls; the refutation is a concrete run, and a theorem for every session that yields plaintext and then fails on the rest of the buffer", "why_tests_cant": "No test uses TLS; errors of a session depend on how TCP cuts the records.", "anchors": ["src/stream.rs:74-145", "src/stream.rs:202-247", "src/stream.rs:266-311"]}
