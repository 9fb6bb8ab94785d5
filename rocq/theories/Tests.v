(** The integration tests, integration-test/tests/client.rs, server.rs and client_server.rs, and
    the test of src/tests.rs.

    Lines that are too long to be checked exhaustively are shorter here; instead, the network
    holds only a few bytes in these tests. The codec is the toy codec, except that it accepts
    only the commands of the tests. *)
From Coq Require Import List NArith Bool String.
From Verif Require Import Base Types Codec Handle Receive ClientSend Client ServerSend Server Stream StreamMachine
  ToyCodec Testers.
Import ListNotations.
Open Scope list_scope.

Definition known (p : bytes) : bool :=
  match split_sp p with
  | None => bytes_eqb p (B "NOOP") || bytes_eqb p (B "CAPABILITY")
  | Some (w, _) => bytes_eqb w (B "LOGIN")
  end.
Definition imap : Codecs := {|
  dec_greeting := t_dec_greeting;
  dec_response := t_dec_response;
  dec_command w :=
    match t_dec_command w with
    | DecOk rest (Command t (BOther p)) => if known p then DecOk rest (Command t (BOther p)) else DecFailed
    | x => x
    end;
  dec_authdata := t_dec_authdata;
  dec_idledone := t_dec_idledone;
  enc_greeting := t_enc_greeting;
  enc_response := t_enc_response;
  enc_command := t_enc_command;
  enc_authdata := t_enc_authdata;
  enc_idledone := [FLine (B "DONE" ++ crlf)]
|}.

Notation CE := (client_end imap).
Notation SE := (server_end imap).
Notation ME := mock_end.

(** test_setup.rs:28-82. Both generators come from the static generators of src/handle.rs; the
    network holds as much as necessary. *)
Definition cgen : hgen := HGen 0 0.
Definition sgen : hgen := HGen 0 0.
Definition roomy : nat := 1000.
Definition client_test (relaxed : bool) (cap : nat) (ps : list (phase CE ME)) : test CE ME :=
  @Test CE ME (c_tester_new imap cgen relaxed) mock_new cap ps.
Definition server_test (o : soptions) (cap : nat) (ps : list (phase ME SE)) : test ME SE :=
  @Test ME SE mock_new (s_tester_new imap sgen o) cap ps.
Definition pair_test (relaxed : bool) (o : soptions) (cap : nat) (ps : list (phase CE SE)) : test CE SE :=
  @Test CE SE (c_tester_new imap cgen relaxed) (s_tester_new imap sgen o) cap ps.

(** Lines of the tests. *)
Definition lf (s : string) : bytes := B s ++ [LF].
Arguments lf s%string_scope.
Definition greeting : bytes := ln "* OK ...".
Definition noop (t : string) : bytes := ln (append t " NOOP").
Definition ok (t : string) : bytes := ln (append t " OK ...").
Definition bananas : bytes := ln "I like bananas".
Definition login1 : bytes := ln "A1 LOGIN {5}".
Definition login2 : bytes := ln "ABCDE {5}".
Definition login3 : bytes := ln "FGHIJ".
Definition login : bytes := login1 ++ login2 ++ login3.
Definition login_ns : bytes := ln "A1 LOGIN {5+}" ++ ln "ABCDE {5+}" ++ ln "FGHIJ".
Definition idle : bytes := ln "A1 IDLE".
Definition auth_ir : bytes := ln "A1 AUTHENTICATE PLAIN dGVzdAB0ZXN0AHRlc3Q=".
Definition auth : bytes := ln "A1 AUTHENTICATE PLAIN".
Definition auth_data : bytes := ln "dGVzdAB0ZXN0AHRlc3Q=".
Definition long (n : nat) : bytes := repeat x2e n.

(** ** tests/client.rs *)
Section Client.
Notation phase := (phase CE ME).
Definition c_greets (b : bytes) : phase := Both [CiNext (CxGreeting b) : e_ins CE] [MSend b : e_ins ME].
Definition c_sends (b : bytes) : phase := Both [CiEnqueue b : e_ins CE; CiNext CxSent] [MReceive b : e_ins ME].
Definition c_status (b : bytes) : phase := Both [CiNext (CxStatus b) : e_ins CE] [MSend b : e_ins ME].
Definition c_error (x : cexpect) (b : bytes) : phase := Both [CiNext x : e_ins CE] [MSend b : e_ins ME].
(** The last lines of most tests. *)
Definition c_usable : list phase := [c_sends (noop "A2"); c_status (ok "A2")].

(** client.rs:5-17 *)
Definition client_noop := client_test false roomy [c_greets greeting; c_sends (noop "A1"); c_status (ok "A1")].
(** client.rs:19-43; the network holds 3 bytes *)
Definition client_noop_with_large_lines :=
  let g := B "* OK " ++ long 30 ++ crlf in
  let s := B "A1 OK " ++ long 30 ++ crlf in
  client_test false 3 [c_greets g; c_sends (noop "A1"); c_status s].
(** client.rs:45-54 *)
Definition client_gibberish_instead_of_greeting :=
  client_test false roomy [c_error (CxMalformed bananas) bananas].
(** client.rs:56-71 *)
Definition client_gibberish_instead_of_response :=
  client_test false roomy [c_greets greeting; c_sends (noop "A1"); c_error (CxMalformed bananas) bananas].
(** client.rs:73-83 *)
Definition client_greeting_with_missing_cr :=
  client_test false roomy [c_error (CxLf (lf "* OK ...")) (lf "* OK ...")].
(** client.rs:85-101 *)
Definition client_response_with_missing_cr :=
  client_test false roomy [c_greets greeting; c_sends (noop "A1"); c_error (CxLf (lf "A1 OK ...")) (lf "A1 OK ...")].
(** client.rs:103-127 *)
Definition client_crlf_relaxed :=
  client_test true roomy [c_greets (lf "* OK ..."); c_sends (noop "A1"); c_status (lf "A1 OK ...");
    c_sends (noop "A2"); c_status (ok "A2")].
(** client.rs:129-148 *)
Definition client_login_with_literal :=
  let ccr := ln "+ ..." in
  client_test false roomy [c_greets greeting;
    Both [CiEnqueue login : e_ins CE; CiNext CxSent]
      [MReceive login1 : e_ins ME; MSend ccr; MReceive login2; MSend ccr; MReceive login3];
    c_status (ln "A1 NO ...")].
(** client.rs:150-163 *)
Definition client_login_with_rejected_literal :=
  let bad := ln "A1 BAD ..." in
  client_test false roomy [c_greets greeting;
    Both [CiEnqueue login : e_ins CE; CiNext (CxRejected bad)] [MReceive login1 : e_ins ME; MSend bad]].
(** client.rs:165-204 *)
Definition client_login_with_literal_and_unexpected_status (b : bytes) :=
  let ccr := ln "+ ..." in
  client_test false roomy [c_greets greeting;
    Both [CiEnqueue login : e_ins CE; CiNext (CxStatus b); CiNext CxSent]
      [MReceive login1 : e_ins ME; MSend b; MSend ccr; MReceive login2; MSend ccr; MReceive login3]].
(** client.rs:206-218 *)
Definition client_login_with_non_sync_literal :=
  client_test false roomy [c_greets greeting; c_sends login_ns; c_status (ln "A1 NO ...")].
(** client.rs:220-252 *)
Definition client_idle_accepted :=
  let ccr := ln "+ idling" in
  client_test false roomy ([c_greets greeting;
    Both [CiEnqueue idle : e_ins CE; CiNext CxIdleSent] [MReceive idle : e_ins ME];
    Both [CiNext (CxIdleAccepted ccr) : e_ins CE] [MSend ccr : e_ins ME];
    Both [CiIdleDone : e_ins CE; CiNext CxIdleDoneSent] [MReceive (ln "DONE") : e_ins ME]] ++ c_usable).
(** client.rs:254-279 *)
Definition client_idle_rejected :=
  let no := ln "A1 NO rise and shine" in
  client_test false roomy ([c_greets greeting;
    Both [CiEnqueue idle : e_ins CE; CiNext CxIdleSent] [MReceive idle : e_ins ME];
    Both [CiNext (CxIdleRejected no) : e_ins CE] [MSend no : e_ins ME]] ++ c_usable).
(** client.rs:281-309, 358-386 *)
Definition client_authenticate_answered (b : bytes) :=
  client_test false roomy ([c_greets greeting;
    Both [CiEnqueue auth_ir : e_ins CE; CiNext CxAuthStarted] [MReceive auth_ir : e_ins ME];
    Both [CiNext (CxAuthStatus auth_ir b) : e_ins CE] [MSend b : e_ins ME]] ++ c_usable).
(** client.rs:311-356, 388-433 *)
Definition client_authenticate_with_more_data (b : bytes) :=
  let ccr := ln "+ " in
  client_test false roomy ([c_greets greeting;
    Both [CiEnqueue auth : e_ins CE; CiNext CxAuthStarted] [MReceive auth : e_ins ME];
    Both [CiNext (CxAuthContinue ccr) : e_ins CE] [MSend ccr : e_ins ME];
    Either [CiAuthData auth_data : e_ins CE; CiNext CxNothing] [MReceive auth_data : e_ins ME];
    Both [CiNext (CxAuthStatus auth b) : e_ins CE] [MSend b : e_ins ME]] ++ c_usable).

Definition client_tests : list (test CE ME) := [
  client_noop; client_noop_with_large_lines;
  client_gibberish_instead_of_greeting; client_gibberish_instead_of_response;
  client_greeting_with_missing_cr; client_response_with_missing_cr; client_crlf_relaxed;
  client_login_with_literal; client_login_with_rejected_literal;
  client_login_with_literal_and_unexpected_status (ln "A1 OK ...");
  client_login_with_literal_and_unexpected_status (ln "A1 NO ...");
  client_login_with_non_sync_literal; client_idle_accepted; client_idle_rejected;
  client_authenticate_answered (ln "A1 OK success"); client_authenticate_answered (ln "A1 NO abort");
  client_authenticate_with_more_data (ln "A1 OK success");
  client_authenticate_with_more_data (ln "A1 NO abort") ].
End Client.

(** ** tests/server.rs *)
Definition o_default : soptions := soptions_default.
Definition o_relaxed : soptions :=
  SOptions true (so_max_literal_size o_default) (so_max_command_size o_default) dots dots.
Definition o_literal (n : N) (accept reject : bytes) : soptions :=
  SOptions false n (so_max_command_size o_default) accept reject.
(** client_server.rs:27-29: the limits are [u32::MAX]. *)
Definition o_unlimited : soptions := SOptions false 4294967295 4294967295 dots dots.
Definition o_command (n : N) : soptions := SOptions false (so_max_literal_size o_default) n dots dots.

Section Server.
Notation phase := (phase ME SE).
Definition s_greets (b : bytes) : phase :=
  Both [MReceive b : e_ins ME] [SiGreet b : e_ins SE; SiNext (SxGreeted b)].
Definition s_receives (b : bytes) : phase := Both [MSend b : e_ins ME] [SiNext (SxCommand b) : e_ins SE].
Definition s_status (b : bytes) : phase := Both [MReceive b : e_ins ME] [SiStatus b : e_ins SE; SiNext SxSent].
Definition s_error (x : sexpect) (b : bytes) : phase := Both [MSend b : e_ins ME] [SiNext x : e_ins SE].
Definition s_usable : list phase := [s_receives (noop "A2"); s_status (ok "A2")].

(** server.rs:5-17 *)
Definition server_noop := server_test o_default roomy [s_greets greeting; s_receives (noop "A1"); s_status (ok "A1")].
(** server.rs:19-43 *)
Definition server_noop_with_large_lines :=
  let g := B "* OK " ++ long 30 ++ crlf in
  let s := B "A1 OK " ++ long 30 ++ crlf in
  server_test o_default 3 [s_greets g; s_receives (noop "A1"); s_status s].
(** server.rs:45-57 *)
Definition server_gibberish_instead_of_command :=
  server_test o_default roomy [s_greets greeting; s_error (SxMalformed bananas) bananas].
(** server.rs:59-72 *)
Definition server_command_with_missing_cr :=
  server_test o_default roomy [s_greets greeting; s_error (SxLf (lf "A1 NOOP")) (lf "A1 NOOP")].
(** server.rs:74-97 *)
Definition server_crlf_relaxed :=
  server_test o_relaxed roomy ([s_greets greeting; s_receives (lf "A1 NOOP"); s_status (ok "A1")] ++ s_usable).
(** server.rs:99-133 *)
Definition server_login_with_literal (n : N) :=
  let ccr := ln "+ You shall pass" in
  server_test (o_literal n (B "You shall pass") dots) roomy [s_greets greeting;
    Both [MSend login1 : e_ins ME; MReceive ccr; MSend login2; MReceive ccr; MSend login3]
      [SiNext (SxCommand login) : e_ins SE];
    s_status (ln "A1 NO ...")].
(** server.rs:135-162 *)
Definition server_login_with_rejected_literal (n : N) :=
  server_test (o_literal n dots (B "You shall not pass")) roomy [s_greets greeting;
    s_error (SxLiteralTooLong login1) login1;
    Either [MReceive (ln "A1 BAD You shall not pass") : e_ins ME] [SiNext SxNothing : e_ins SE]].
(** server.rs:164-176 *)
Definition server_login_with_non_sync_literal :=
  server_test o_default roomy [s_greets greeting; s_receives login_ns; s_status (ln "A1 NO ...")].
(** server.rs:178-208 *)
Definition server_command_larger_than_max_command_size (n : nat) :=
  server_test (o_command (N.of_nat n)) roomy [s_greets greeting; s_receives (noop "A1");
    s_error (SxCommandTooLong (long n)) (long (S n))].
(** server.rs:210-268; the size of the password is one digit *)
Definition server_command_with_literals_larger_than_max_command_size (n : nat) (digit : string) :=
  let a := ln "A1 LOGIN {3}" in
  let b := ln "ABC {3}" in
  let c := ln "..." in
  let b' := B "ABC {" ++ B digit ++ ln "}" in
  let c' := long n ++ crlf in
  let ccr := ln "+ more data" in
  server_test (SOptions false (N.of_nat n) 28 (B "more data") dots) roomy [s_greets greeting;
    Both [MSend a : e_ins ME; MReceive ccr; MSend b; MReceive ccr; MSend c]
      [SiNext (SxCommand (a ++ b ++ c)) : e_ins SE];
    Both [MSend a : e_ins ME; MReceive ccr; MSend b'; MReceive ccr; MSend c']
      [SiNext (SxCommandTooLong (firstn 28 (a ++ b' ++ c'))) : e_ins SE]].
(** server.rs:270-299 *)
Definition server_idle_accepted :=
  let ccr := ln "+ idling" in
  server_test o_default roomy ([s_greets greeting;
    Both [MSend idle : e_ins ME] [SiNext (SxIdle idle) : e_ins SE];
    Both [MReceive ccr : e_ins ME] [SiIdleAccept ccr : e_ins SE; SiNext SxSent];
    Both [MSend (ln "DONE") : e_ins ME] [SiNext SxIdleDone : e_ins SE]] ++ s_usable).
(** server.rs:301-323 *)
Definition server_idle_rejected :=
  let no := ln "A1 NO rise and shine" in
  server_test o_default roomy ([s_greets greeting;
    Both [MSend idle : e_ins ME] [SiNext (SxIdle idle) : e_ins SE];
    Both [MReceive no : e_ins ME] [SiIdleReject no : e_ins SE; SiNext SxSent]] ++ s_usable).
(** server.rs:325-353, 399-427 *)
Definition server_authenticate_answered (b : bytes) :=
  server_test o_default roomy ([s_greets greeting;
    Both [MSend auth_ir : e_ins ME] [SiNext (SxAuth auth_ir) : e_ins SE];
    Both [MReceive b : e_ins ME] [SiAuthFinish b : e_ins SE; SiNext SxSent]] ++ s_usable).
(** server.rs:355-397, 429-471 *)
Definition server_authenticate_with_more_data (b : bytes) :=
  let ccr := ln "+ " in
  server_test o_default roomy ([s_greets greeting;
    Both [MSend auth : e_ins ME] [SiNext (SxAuth auth) : e_ins SE];
    Both [MReceive ccr : e_ins ME] [SiAuthContinue ccr : e_ins SE; SiNext SxSent];
    Both [MSend auth_data : e_ins ME] [SiNext (SxAuthData auth_data) : e_ins SE];
    Both [MReceive b : e_ins ME] [SiAuthFinish b : e_ins SE; SiNext SxSent]] ++ s_usable).

Definition server_tests : list (test ME SE) := [
  server_noop; server_noop_with_large_lines; server_gibberish_instead_of_command;
  server_command_with_missing_cr; server_crlf_relaxed ] ++
  map server_login_with_literal [5; 6; 10; 100]%N ++
  map server_login_with_rejected_literal [0; 1; 4]%N ++
  [ server_login_with_non_sync_literal ] ++
  map server_command_larger_than_max_command_size [9; 10; 20; 40] ++
  [ server_command_with_literals_larger_than_max_command_size 4 "4";
    server_command_with_literals_larger_than_max_command_size 5 "5";
    server_command_with_literals_larger_than_max_command_size 6 "6";
    server_command_with_literals_larger_than_max_command_size 7 "7";
    server_command_with_literals_larger_than_max_command_size 8 "8";
    server_command_with_literals_larger_than_max_command_size 9 "9";
    server_idle_accepted; server_idle_rejected;
    server_authenticate_answered (ln "A1 OK success"); server_authenticate_answered (ln "A1 NO abort");
    server_authenticate_with_more_data (ln "A1 OK success");
    server_authenticate_with_more_data (ln "A1 NO abort") ].
End Server.

(** ** tests/client_server.rs *)
Section Pair.
Notation phase := (phase CE SE).
Definition p_greets (b : bytes) : phase :=
  Both [CiNext (CxGreeting b) : e_ins CE] [SiGreet b : e_ins SE; SiNext (SxGreeted b)].
Definition p_command (b : bytes) : phase :=
  Both [CiEnqueue b : e_ins CE; CiNext CxSent] [SiNext (SxCommand b) : e_ins SE].
Definition p_status (b : bytes) : phase :=
  Both [CiNext (CxStatus b) : e_ins CE] [SiStatus b : e_ins SE; SiNext SxSent].
Definition p_usable : list phase := [p_command (noop "A2"); p_status (ok "A2")].

(** client_server.rs:5-20 *)
Definition pair_noop := pair_test false o_default roomy [p_greets greeting; p_command (noop "A1"); p_status (ok "A1")].
(** client_server.rs:22-62; the network holds [cap] bytes in each direction, the messages [n]
    bytes of padding *)
Definition pair_send_large_messages_in_parallel (cap n : nat) :=
  let l := B "A1 LOGIN ABCDE " ++ repeat x78 n ++ crlf in
  let s := B "A1 OK " ++ long n ++ crlf in
  pair_test false o_unlimited cap [p_greets greeting; p_command (noop "A1");
    Both [CiEnqueue l : e_ins CE; CiNext CxSent] [SiStatus s : e_ins SE; SiNext SxSent];
    Both [CiNext (CxStatus s) : e_ins CE] [SiNext (SxCommand l) : e_ins SE]].
(** client_server.rs:64-91; the options are not used there *)
Definition pair_login_with_literal :=
  pair_test false o_default roomy [p_greets greeting; p_command login; p_status (ln "A1 NO ...")].
(** client_server.rs:93-123 *)
Definition pair_login_with_rejected_literal (n : N) :=
  pair_test false (o_literal n dots (B "You shall not pass")) roomy [p_greets greeting;
    Either [CiEnqueue login : e_ins CE; CiNext (CxRejected (ln "A1 BAD You shall not pass"))]
      [SiNext (SxLiteralTooLong login1) : e_ins SE; SiNext SxNothing]].
(** client_server.rs:125-140 *)
Definition pair_login_with_non_sync_literal :=
  pair_test false o_default roomy [p_greets greeting; p_command login_ns; p_status (ln "A1 NO ...")].
(** client_server.rs:142-176 *)
Definition pair_idle_accepted :=
  let ccr := ln "+ idling" in
  pair_test false o_default roomy ([p_greets greeting;
    Both [CiEnqueue idle : e_ins CE; CiNext CxIdleSent] [SiNext (SxIdle idle) : e_ins SE];
    Both [CiNext (CxIdleAccepted ccr) : e_ins CE] [SiIdleAccept ccr : e_ins SE; SiNext SxSent];
    Both [CiIdleDone : e_ins CE; CiNext CxIdleDoneSent] [SiNext SxIdleDone : e_ins SE]] ++ p_usable).
(** client_server.rs:178-206 *)
Definition pair_idle_rejected :=
  let no := ln "A1 NO rise and shine" in
  pair_test false o_default roomy ([p_greets greeting;
    Both [CiEnqueue idle : e_ins CE; CiNext CxIdleSent] [SiNext (SxIdle idle) : e_ins SE];
    Both [CiNext (CxIdleRejected no) : e_ins CE] [SiIdleReject no : e_ins SE; SiNext SxSent]] ++ p_usable).
(** client_server.rs:208-239, 291-322 *)
Definition pair_authenticate_answered (b : bytes) :=
  pair_test false o_default roomy ([p_greets greeting;
    Both [CiEnqueue auth : e_ins CE; CiNext CxAuthStarted] [SiNext (SxAuth auth) : e_ins SE];
    Both [CiNext (CxAuthStatus auth b) : e_ins CE] [SiAuthFinish b : e_ins SE; SiNext SxSent]] ++ p_usable).
(** client_server.rs:241-289, 324-372 *)
Definition pair_authenticate_with_more_data (b : bytes) :=
  let ccr := ln "+ " in
  pair_test false o_default roomy ([p_greets greeting;
    Both [CiEnqueue auth : e_ins CE; CiNext CxAuthStarted] [SiNext (SxAuth auth) : e_ins SE];
    Both [CiNext (CxAuthContinue ccr) : e_ins CE] [SiAuthContinue ccr : e_ins SE; SiNext SxSent];
    Either [CiAuthData auth_data : e_ins CE; CiNext CxNothing] [SiNext (SxAuthData auth_data) : e_ins SE];
    Both [CiNext (CxAuthStatus auth b) : e_ins CE] [SiAuthFinish b : e_ins SE; SiNext SxSent]] ++ p_usable).

(** src/tests.rs:15-81 [self_test]. The server's task is dropped when the test returns. *)
Definition self_greeting : bytes := ln "* OK Hello, World!".
Definition self_server (e : sevent) : reaction sapp :=
  let no (t : tag) := RCalls [SaEnqueue (RStatus (StTagged t (StatusBody SkNo None dots)))] in
  match e with
  | SeCommandReceived c => no (ctag c)
  | SeCommandAuthenticateReceived ca => no (ca_tag ca)
  | _ => RCalls []
  end.
Definition self_client (e : cevent) : reaction capp :=
  match e with
  | CeGreetingReceived g => if greeting_dec (Greeting GkOk None (B "Hello, World!")) g then RCalls [] else RPanic
  | CeStatusReceived _ => RCalls [CaEnqueueCommand (Command (B "A2") (BAuthenticate AMPlain None))]
  | CeAuthenticateStatusReceived _ _ _ => RBreak
  | _ => RCalls []
  end.
Definition self_test :=
  pair_test false o_default roomy [
    Either [CiEnqueue (ln "A1 CAPABILITY") : e_ins CE; CiLoop self_client]
      [SiGreet self_greeting : e_ins SE; SiLoop self_server]].

Definition pair_tests : list (test CE SE) := [
  pair_noop; pair_login_with_literal ] ++
  map pair_login_with_rejected_literal [0; 1; 4]%N ++ [
  pair_login_with_non_sync_literal; pair_idle_accepted; pair_idle_rejected;
  pair_authenticate_answered (ln "A1 OK success"); pair_authenticate_answered (ln "A1 NO abort");
  pair_authenticate_with_more_data (ln "A1 OK success");
  pair_authenticate_with_more_data (ln "A1 NO abort"); self_test ].
End Pair.
