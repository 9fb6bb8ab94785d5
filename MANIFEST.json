{
 "claims": [
  {
   "property": "C01",
   "status": "proved",
   "theorems": [
    "C01_client_chunking",
    "C01_server_chunking",
    "C01_server_refuted"
   ],
   "note": "Client: every application. Server: applications that do not call between an output (or LiteralTooLong) and the next `next`; refuted otherwise."
  },
  {
   "property": "C02",
   "status": "proved",
   "theorems": [
    "C02_client_partition",
    "C02_server_partition"
   ],
   "note": ""
  },
  {
   "property": "C03",
   "status": "proved",
   "theorems": [
    "C03_client_frames",
    "C03_client_reports",
    "C03_framing_unique",
    "C03_server_frames",
    "C03_server_reports"
   ],
   "note": ""
  },
  {
   "property": "C04",
   "status": "proved",
   "theorems": [
    "C04_client_line_ends",
    "C04_client_relaxed",
    "C04_server_line_ends",
    "C04_server_relaxed"
   ],
   "note": ""
  },
  {
   "property": "C05",
   "status": "proved",
   "theorems": [
    "C05_server_size",
    "C05_server_too_long"
   ],
   "note": ""
  },
  {
   "property": "C06",
   "status": "proved",
   "theorems": [
    "C06_server_below_limit",
    "C06_server_memory",
    "C06_server_refuted"
   ],
   "note": "Refuted while a decision about IDLE is pending."
  },
  {
   "property": "C07",
   "status": "proved",
   "theorems": [
    "C07_client_need_more",
    "C07_server_need_more",
    "C07_server_settled",
    "C07_server_outputs",
    "C07_server_refuted"
   ],
   "note": "Client without exception. Server: one exception, shown real by the refutation."
  },
  {
   "property": "C08",
   "status": "proved",
   "theorems": [
    "C08_client_returns",
    "C08_client_bounded",
    "C08_server_returns",
    "C08_server_bounded",
    "C08_server_refuted"
   ],
   "note": "Refuted for max_command_size = 0 only."
  },
  {
   "property": "C09",
   "status": "proved",
   "theorems": [
    "C09_client_no_panic",
    "C09_server_no_panic"
   ],
   "note": ""
  },
  {
   "property": "C10",
   "status": "proved",
   "theorems": [
    "C10_client_in_order"
   ],
   "note": ""
  },
  {
   "property": "C11",
   "status": "proved",
   "theorems": [
    "C11_client_sent_complete"
   ],
   "note": ""
  },
  {
   "property": "C12",
   "status": "proved",
   "theorems": [
    "C12_client_literals"
   ],
   "note": "That non-synchronizing literals do not wait follows from C07_client_need_more: only a synchronizing literal is a reason to wait."
  },
  {
   "property": "C13",
   "status": "proved",
   "theorems": [
    "C13_client_rejected",
    "C13_client_reactions"
   ],
   "note": ""
  },
  {
   "property": "C14",
   "status": "proved",
   "theorems": [
    "C14_client_resolved_once"
   ],
   "note": ""
  },
  {
   "property": "C15",
   "status": "proved",
   "theorems": [
    "C15_client_greeting_first"
   ],
   "note": ""
  },
  {
   "property": "C16",
   "status": "proved",
   "theorems": [
    "C16_client_authenticate"
   ],
   "note": "Unfinished exchanges: C10_client_in_order, C17_client_running."
  },
  {
   "property": "C17",
   "status": "proved",
   "theorems": [
    "C17_client_idle",
    "C17_client_running"
   ],
   "note": ""
  },
  {
   "property": "C18",
   "status": "proved",
   "theorems": [
    "C18_client_set_auth",
    "C18_client_set_done",
    "C18_client_refused_auth",
    "C18_client_refused_done"
   ],
   "note": ""
  },
  {
   "property": "C19",
   "status": "proved",
   "theorems": [
    "C19_client_delivered"
   ],
   "note": "Together with C03_client_frames and C13_client_reactions."
  },
  {
   "property": "C20",
   "status": "proved",
   "theorems": [
    "C20_client_malformed",
    "C20_server_malformed"
   ],
   "note": "Server: for applications as in C01."
  },
  {
   "property": "C21",
   "status": "proved",
   "theorems": [
    "C21_server_in_order"
   ],
   "note": ""
  },
  {
   "property": "C22",
   "status": "proved",
   "theorems": [
    "C22_server_sent_after_output",
    "C22_server_sent_before",
    "C22_server_sent_list"
   ],
   "note": ""
  },
  {
   "property": "C23",
   "status": "proved",
   "theorems": [
    "C23_server_literals",
    "C23_server_acknowledged",
    "C23_server_rejected"
   ],
   "note": ""
  },
  {
   "property": "C24",
   "status": "proved",
   "theorems": [
    "C24_server_idle_waits",
    "C24_server_idle_done",
    "C24_server_idle_accept",
    "C24_server_idle_reject",
    "C24_server_refused"
   ],
   "note": ""
  },
  {
   "property": "C25",
   "status": "proved",
   "theorems": [
    "C25_server_auth_data",
    "C25_server_auth_continue",
    "C25_server_auth_finish",
    "C25_server_refused"
   ],
   "note": ""
  },
  {
   "property": "C26",
   "status": "proved",
   "theorems": [
    "C26_handles_unique",
    "C26_handles_wrap",
    "C26_client_handles",
    "C26_server_handles"
   ],
   "note": ""
  },
  {
   "property": "C27",
   "status": "proved",
   "theorems": [
    "C27_tags_unique"
   ],
   "note": ""
  },
  {
   "property": "C28",
   "status": "proved",
   "theorems": [
    "C28_requests",
    "C28_requests_all",
    "C28_delivered",
    "C28_delivered_all",
    "C28_tags_refuted",
    "C28_early_refuted"
   ],
   "note": "Under the assumptions listed in orderly (codec law, limits, distinct tags, application of the server follows the protocol); refuted when tags repeat or a status is sent before its command was received."
  },
  {
   "property": "C29",
   "status": "proved",
   "theorems": [
    "C29_no_literal_wait",
    "C29_turn",
    "C29_size_refuted"
   ],
   "note": "Under orderly. Refuted when the line announcing a synchronizing literal exceeds the size limit for commands."
  },
  {
   "property": "C30",
   "status": "proved",
   "theorems": [
    "C30_received",
    "C30_reported",
    "C30_polite_refuted"
   ],
   "note": "Reading needs only the codec law. What the application is told needs orderly; refuted when the application of the server enqueues a continuation request that nothing calls for."
  },
  {
   "property": "C31",
   "status": "proved",
   "theorems": [
    "C31_conserved",
    "C31_given_before_next",
    "C31_client_in_stream",
    "C31_server_in_stream",
    "C31_client_no_panic",
    "C31_server_no_panic"
   ],
   "note": "for every state machine, every schedule of reads, writes, errors and cancellations"
  },
  {
   "property": "C32",
   "status": "proved",
   "theorems": [
    "C32_sent_before_written_refuted",
    "C32_flushed",
    "C32_waiting"
   ],
   "note": "strict form refuted by a concrete schedule; proved after flush and when only waiting for input"
  },
  {
   "property": "C33",
   "status": "proved",
   "theorems": [
    "C33_closed_reported",
    "C33_closed_cause",
    "C33_no_spinning"
   ],
   "note": ""
  },
  {
   "property": "C34",
   "status": "proved",
   "theorems": [
    "C34_decrypt_hangs_refuted",
    "C34_returns"
   ],
   "note": "refuted for sessions that return no bytes after close_notify; termination proved for sessions satisfying tls_finite"
  },
  {
   "property": "C35",
   "status": "proved",
   "theorems": [
    "C35_received",
    "C35_sent",
    "C35_flushed",
    "C35_records_emitted"
   ],
   "note": "laws of the session are hypotheses, with a toy instance"
  },
  {
   "property": "C36",
   "status": "proved",
   "theorems": [
    "C36_reduced",
    "C36_supported",
    "C36_determined",
    "C36_idempotent"
   ],
   "note": "lists of capabilities in greetings, codes and data; filter as specified by `reduced`"
  },
  {
   "property": "C37",
   "status": "proved",
   "theorems": [
    "C37_enqueued",
    "C37_greeting",
    "C37_refuted"
   ],
   "note": "true for the greeting and all enqueued responses; refuted for the four calls that pass responses on unfiltered"
  },
  {
   "property": "C38",
   "status": "proved",
   "theorems": [
    "C38_forwards",
    "C38_forwards_running",
    "C38_succeeds",
    "C38_streams"
   ],
   "note": "codec laws only where the proxy has ended; capabilities reduced as in C36"
  },
  {
   "property": "C39",
   "status": "proved",
   "theorems": [
    "C39_panics",
    "C39_panicked",
    "C39_refuted"
   ],
   "note": "the strict claim is refuted (two reachable panics); proved: there are no others"
  },
  {
   "property": "C40",
   "status": "proved",
   "theorems": [
    "C40_no_smuggling",
    "C28_requests",
    "C40_literal_refuted",
    "C40_cross_refuted",
    "C40_cross_sync_refuted",
    "C40_polite_refuted"
   ],
   "note": "Positive part under orderly; refuted when limits are not respected."
  },
  {
   "property": "C41",
   "status": "proved",
   "theorems": [
    "C41_tags_valid"
   ],
   "note": ""
  },
  {
   "property": "C42",
   "status": "proved",
   "theorems": [
    "C42_overflow",
    "C42_cut_output_refuted"
   ],
   "note": "refutation"
  },
  {
   "property": "C43",
   "status": "proved",
   "theorems": [
    "C43_deaf_refuted"
   ],
   "note": "refutation, for every session satisfying tls_receives"
  },
  {
   "property": "C44",
   "status": "proved",
   "theorems": [
    "C44_read_buffer_empty",
    "C44_write_buffer_empty"
   ],
   "note": ""
  },
  {
   "property": "C45",
   "status": "proved",
   "theorems": [
    "C45_refuted"
   ],
   "note": "refuted with a concrete session, for every continuation"
  },
  {
   "property": "C46",
   "status": "proved",
   "theorems": [
    "C46_ends",
    "C46_ends_after_greeting"
   ],
   "note": ""
  },
  {
   "property": "C47",
   "status": "proved",
   "theorems": [
    "C47_returned",
    "C47_at_once"
   ],
   "note": ""
  },
  {
   "property": "C48",
   "status": "proved",
   "theorems": [
    "C48_writes",
    "C48_own",
    "C48_waiting",
    "C48_stall_refuted"
   ],
   "note": "stream to the client without TLS; strict form refuted, exception characterised"
  },
  {
   "property": "C49",
   "status": "proved",
   "theorems": [
    "C49_writes",
    "C49_stall_refuted"
   ],
   "note": "stream without TLS; strict form refuted, exception characterised"
  },
  {
   "property": "C50",
   "status": "proved",
   "theorems": [
    "C50_alone",
    "C50_no_panic"
   ],
   "note": ""
  },
  {
   "property": "C51",
   "status": "proved",
   "theorems": [
    "C51_terminates",
    "C51_waiting",
    "C51_moves",
    "C51_completes",
    "C51_size_refuted"
   ],
   "note": "max_command_size 0 refuted: the server reports errors forever"
  },
  {
   "property": "C52",
   "status": "proved",
   "theorems": [
    "C52_alone",
    "C52_plain",
    "C52_tls",
    "C52_direct",
    "C52_error_refuted"
   ],
   "note": "refuted after an error of the TLS session"
  },
  {
   "property": "C53",
   "status": "proved",
   "theorems": [
    "C53_exchange",
    "C53_commands",
    "C53_delivered",
    "C53_no_smuggling",
    "C53_greeting",
    "C53_clean"
   ],
   "note": ""
  },
  {
   "property": "C54",
   "status": "proved",
   "theorems": [
    "C54_rest",
    "C54_greeted",
    "C54_delivered",
    "C54_resolved",
    "C54_enqueued_refuted",
    "C54_told"
   ],
   "note": "the form with all enqueued responses is refuted"
  },
  {
   "property": "C55",
   "status": "proved",
   "theorems": [
    "C55_terminates",
    "C55_rest",
    "C55_settles"
   ],
   "note": "streams without TLS"
  },
  {
   "property": "C56",
   "status": "proved",
   "theorems": [
    "C56_system",
    "C56_streams"
   ],
   "note": "Assumes the round trips and limits of C28 and a polite server application (SpecSystem.v)."
  },
  {
   "property": "C57",
   "status": "proved",
   "theorems": [
    "C57_alone",
    "C57_legs",
    "C57_orderly",
    "C57_passed"
   ],
   "note": "With TLS, runs in which a session reports an error are excluded (linked). By C57_passed, C58 to C60 hold under assumptions about the two ends only, given that encoders and decoders agree about what the proxy may send (relayable)."
  },
  {
   "property": "C58",
   "status": "proved",
   "theorems": [
    "C58_no_panic",
    "C58_clean",
    "C58_ends",
    "C58_impolite_refuted"
   ],
   "note": "The politeness assumption is needed: C58_impolite_refuted. C58_ends also assumes no_trailing, single_lines, sno_trailing and no XHang at the proxy. TLS as in C57."
  },
  {
   "property": "C59",
   "status": "proved",
   "theorems": [
    "C59_greeting",
    "C59_exchange",
    "C59_commands",
    "C59_delivered",
    "C59_no_smuggling"
   ],
   "note": "TLS as in C57."
  },
  {
   "property": "C60",
   "status": "proved",
   "theorems": [
    "C60_rest",
    "C60_greeted",
    "C60_told",
    "C60_delivered",
    "C60_resolved"
   ],
   "note": "C60_rest allows passed-on responses to stay unsent in the proxy (late), by C60_told only if the proxy rejected a request. TLS as in C57."
  },
  {
   "property": "C61",
   "status": "proved",
   "theorems": [
    "C61_terminates",
    "C61_rest",
    "C61_orderly",
    "C61_settles",
    "C61_delivered"
   ],
   "note": "Without TLS only. C61_terminates needs no orderly ends. The other theorems assume that the proxy has lost no connection in the run so far; with literals above a limit, C60_rest and C60_told say what is delivered at rest."
  },
  {
   "property": "C62",
   "status": "proved",
   "theorems": [
    "C62_texts",
    "C62_values",
    "C62_setters",
    "C62_responses",
    "C62_proxy",
    "C62_fits",
    "C62_default",
    "C62_documented_refuted"
   ],
   "note": "What imap-types accepts as a text is an arbitrary predicate. C62_documented_refuted is the negation of sufficiency of the documented condition."
  },
  {
   "property": "C63",
   "status": "proved",
   "theorems": [
    "C63_conversations",
    "C63_handles",
    "C63_handles_differ",
    "C63_unserved",
    "C63_isolated",
    "C63_listens",
    "C63_accepts",
    "C63_blocked_refuted",
    "C63_end",
    "C63_roots",
    "C63_addresses",
    "C63_ports",
    "C63_shown",
    "C63_key"
   ],
   "note": "TLS handshakes, connecting and loading of certificates are single steps with arbitrary outcome. Reading the TOML file and certificates is not modelled. C63_blocked_refuted refutes readiness for services with TLS."
  },
  {
   "property": "C64",
   "status": "proved",
   "theorems": [
    "C64_clients",
    "C64_servers",
    "C64_no_panic"
   ],
   "note": ""
  },
  {
   "property": "C65",
   "status": "proved",
   "theorems": [
    "C65_client",
    "C65_client_authenticate",
    "C65_client_idle",
    "C65_server",
    "C65_server_authenticate",
    "C65_server_idle",
    "C65_servers_say"
   ],
   "note": "The theorems about servers, except C65_servers_say, say what holds whenever the program waits for the next event."
  },
  {
   "property": "C66",
   "status": "proved",
   "theorems": [
    "C66_orderly",
    "C66_login",
    "C66_authenticate",
    "C66_idle",
    "C66_idle_returns",
    "C66_login_lives",
    "C66_idle_lives",
    "C66_authenticate_lives"
   ],
   "note": "Assumes `agreed` (SpecApps.v): round trips for the messages that the two programs exchange, and the limits of the server. That IDLE which is rejected leaves client_idle.rs waiting is a defect of the example (C66_idle_example contains such a run). The three theorems `_lives` are for plain connections whose sockets work (`works`, SpecApps.v)."
  },
  {
   "property": "C67",
   "status": "proved",
   "theorems": [
    "C67_std",
    "C67_spins"
   ],
   "note": ""
  },
  {
   "property": "C68",
   "status": "proved",
   "theorems": [
    "C68_client_tests",
    "C68_server_tests",
    "C68_client_server_tests",
    "C68_self_test",
    "C68_tests_return",
    "C68_mock_receives",
    "C68_client_tester",
    "C68_server_tester"
   ],
   "note": "By a verified exhaustive search of all schedules. The codec is a concrete one (Tests.v); timeouts and socket errors are not modelled."
  },
  {
   "property": "C69",
   "status": "proved",
   "theorems": [
    "C69_large_messages_can_hang",
    "C69_large_messages_refuted",
    "C69_large_messages_hang_at_every_size",
    "C69_taking_turns_hangs",
    "C69_server_hangs_too",
    "C69_large_messages_can_pass",
    "C69_large_messages_never_panic"
   ],
   "note": "Refutes the test's claim that it cannot deadlock; related to C32."
  },
  {
   "property": "C70",
   "status": "proved",
   "theorems": [
    "C70_ciphertext",
    "C70_lost",
    "C70_plaintext_delivered_refuted"
   ],
   "note": "Conservation holds without laws of the session. The second half of the property is false for the code; C70_plaintext_delivered_refuted is a concrete run, C70_lost the general cause."
  }
 ]
}
