(** Model of src/server.rs and src/server_receive.rs. *)
From Coq Require Import List NArith Bool.
From Verif Require Import Base Types Codec Handle Receive ServerSend.
Import ListNotations.

(** src/server.rs:35-51 [Options]. The two continuation requests are represented by their
    texts: they are always [Basic] without code (src/server.rs:63-68, 82-92, 101-111). *)
Record soptions : Type := SOptions {
  so_crlf_relaxed : bool;
  so_max_literal_size : N;
  so_max_command_size : N;
  so_accept_text : bytes;
  so_reject_text : bytes
}.

(** "..." *)
Definition dots : bytes := [x2e; x2e; x2e].

(** src/server.rs:53-71 [Options::default]. *)
Definition soptions_default : soptions :=
  {| so_crlf_relaxed := false;
     so_max_literal_size := 25 * 1024 * 1024;
     so_max_command_size := (25 * 1024 * 1024) + (64 * 1024);
     so_accept_text := dots;
     so_reject_text := dots |}%N.

(** src/server_receive.rs:5-12 [ServerReceiveState]. *)
Inductive srecv : Type :=
| SrCommand (s : rstate)
| SrAuthenticateData (s : rstate)
| SrIdleAccept (s : rstate)
| SrIdleDone (s : rstate)
| SrDummy.

(** src/server_receive.rs:65-70 [NextExpectedMessage]. *)
Inductive expected : Type := ExCommand | ExAuthenticateData | ExIdleAccept | ExIdleDone.

(** src/server_receive.rs:15-61 [change_state]. *)
Definition sr_change_state (r : srecv) (e : expected) : res srecv :=
  match e with
  | ExCommand =>
      match r with
      | SrCommand s => Val (SrCommand s)
      | SrAuthenticateData s => Val (SrCommand (rs_change_codec s))
      | SrIdleAccept s => Val (SrCommand (rs_change_codec s))
      | SrIdleDone s => Val (SrCommand (rs_change_codec s))
      | SrDummy => Panic
      end
  | ExAuthenticateData =>
      match r with
      | SrCommand s => Val (SrAuthenticateData (rs_change_codec s))
      | SrAuthenticateData s => Val (SrAuthenticateData s)
      | SrIdleAccept s => Val (SrAuthenticateData (rs_change_codec s))
      | SrIdleDone s => Val (SrAuthenticateData (rs_change_codec s))
      | SrDummy => Panic
      end
  | ExIdleAccept =>
      match r with
      | SrCommand s => Val (SrIdleAccept (rs_change_codec s))
      | SrAuthenticateData s => Val (SrIdleAccept (rs_change_codec s))
      | SrIdleAccept s => Val (SrIdleAccept s)
      | SrIdleDone s => Val (SrIdleAccept (rs_change_codec s))
      | SrDummy => Panic
      end
  | ExIdleDone =>
      match r with
      | SrCommand s => Val (SrIdleDone (rs_change_codec s))
      | SrAuthenticateData s => Val (SrIdleDone (rs_change_codec s))
      | SrIdleAccept s => Val (SrIdleDone (rs_change_codec s))
      | SrIdleDone s => Val (SrIdleDone s)
      | SrDummy => Panic
      end
  end.

(** src/server.rs:113-118 [Server]. *)
Record server : Type := ServerSt {
  s_opts : soptions;
  s_gen : hgen;
  s_send : ssend;
  s_recv : srecv
}.

Definition s_set_send (s : server) (x : ssend) : server :=
  {| s_opts := s_opts s; s_gen := s_gen s; s_send := x; s_recv := s_recv s |}.

Definition s_set_recv (s : server) (x : srecv) : server :=
  {| s_opts := s_opts s; s_gen := s_gen s; s_send := s_send s; s_recv := x |}.

(** src/server.rs:121-139 [new]. *)
Definition server_new (g : hgen) (o : soptions) (gr : greeting) : server :=
  {| s_opts := o;
     s_gen := g;
     s_send := ss_enqueue ss_new (SmGreeting gr);
     s_recv := SrCommand (rs_new (so_crlf_relaxed o) (Some (so_max_command_size o))) |}.

(** src/server.rs:146-151 [enqueue_data], 158-163 [enqueue_status], 170-180
    [enqueue_continuation_request]. *)
Definition server_enqueue_response (s : server) (r : response) : server * handle :=
  let '(g', h) := hgen_generate (s_gen s) in
  ({| s_opts := s_opts s; s_gen := g';
      s_send := ss_enqueue (s_send s) (SmResponse (Some h) r);
      s_recv := s_recv s |}, h).

Definition server_enqueue_data (s : server) (d : data) := server_enqueue_response s (RData d).
Definition server_enqueue_status (s : server) (t : status) :=
  server_enqueue_response s (RStatus t).
Definition server_enqueue_continuation_request (s : server) (q : ccr) :=
  server_enqueue_response s (RCcr q).

Definition s_ires := ires sevent serror.

(** src/server.rs:182-206 [progress_send]. *)
Definition server_progress_send (K : Codecs) (s : server) : server * s_ires :=
  let '(x, r) := ss_next K (s_send s) in
  let s1 := s_set_send s x in
  match r with
  | SsOk (Some (SmGreeting g)) => (s1, IEvent (SeGreetingSent g))
  | SsOk (Some (SmResponse (Some h) resp)) => (s1, IEvent (SeResponseSent h resp))
  | SsOk (Some (SmResponse None _)) => (s1, INone)
  | SsOk None => (s1, INone)
  | SsOutput b => (s1, IOutput b)
  end.

(** Ghost output, not part of the Rust code: what was read. [SvLiteral] is an accepted
    literal; the announcing bytes stay in the buffer. *)
Inductive sverdict : Type :=
| SvCommand (c : command)
| SvAuthData (d : auth_data)
| SvIdleDone
| SvLiteralTooLong (l : cmd_lit)
| SvMalformed
| SvBareLf
| SvTooLong.
Inductive srx : Type :=
| SrxMsg (raw : bytes) (v : sverdict)
| SrxLit (l : cmd_lit).

(** Internal responses (src/server.rs:255-262 and 293-302). *)
Definition literal_reject_status (o : soptions) (t : tag) : status :=
  StTagged t {| sb_kind := SkBad; sb_code := None; sb_text := so_reject_text o |}.
Definition literal_accept_ccr (o : soptions) : ccr := CcrBasic None (so_accept_text o).

(** [discard_message] followed by returning an error. *)
Definition server_discard (s : server) (wrap : rstate -> srecv) (x : rstate)
    (v : sverdict) (mk : bytes -> serror) : server * list srx * s_ires :=
  match rs_discard_message x with
  | Panic => (s_set_recv s (wrap x), [], IPanic)
  | Val (x', d) => (s_set_recv s (wrap x'), [SrxMsg d v], IError (mk d))
  end.

(** [finish_message], optional [change_state], and event. *)
Definition server_finish (s : server) (wrap : rstate -> srecv) (x : rstate)
    (next : option expected) (v : sverdict) (e : sevent) : server * list srx * s_ires :=
  match rs_finish_message x with
  | Panic => (s_set_recv s (wrap x), [], IPanic)
  | Val x' =>
      let g := [SrxMsg (firstn (rs_seen x) (rs_buf x)) v] in
      match next with
      | None => (s_set_recv s (wrap x'), g, IEvent e)
      | Some ex =>
          match sr_change_state (wrap x') ex with
          | Panic => (s_set_recv s (wrap x'), g, IPanic)
          | Val r => (s_set_recv s r, g, IEvent e)
          end
      end
  end.

(** src/server.rs:208-403 [progress_receive]. *)
Definition server_progress_receive (K : Codecs) (s : server)
  : server * list srx * s_ires :=
  match s_recv s with
  | SrCommand x =>
      let '(x1, r) := rs_next (dec_command K) x in
      let s1 := s_set_recv s (SrCommand x1) in
      match r with
      | RcvMsg c =>
          match cbody c with
          | BAuthenticate mech ir =>
              server_finish s SrCommand x1 (Some ExAuthenticateData) (SvCommand c)
                (SeCommandAuthenticateReceived
                   {| ca_tag := ctag c; ca_mechanism := mech; ca_initial_response := ir |})
          | BIdle =>
              server_finish s SrCommand x1 (Some ExIdleAccept) (SvCommand c)
                (SeIdleCommandReceived (ctag c))
          | BOther _ =>
              server_finish s SrCommand x1 None (SvCommand c) (SeCommandReceived c)
          end
      | RcvNeedMore => (s1, [], INeedMore)
      | RcvLit l =>
          if N.ltb (so_max_literal_size (s_opts s)) (cl_length l)
          then
            match cl_mode l with
            | LSync =>
                let s2 := s_set_send s (ss_enqueue (s_send s)
                            (SmResponse None
                              (RStatus (literal_reject_status (s_opts s) (cl_tag l))))) in
                server_discard s2 SrCommand x1 (SvLiteralTooLong l) SerrLiteralTooLong
            | LNonSync =>
                server_discard s SrCommand x1 (SvLiteralTooLong l) SerrLiteralTooLong
            end
          else
            let s2 := s_set_recv s (SrCommand (rs_start_literal x1 (cl_length l))) in
            match cl_mode l with
            | LSync =>
                (s_set_send s2 (ss_enqueue (s_send s2)
                   (SmResponse None (RCcr (literal_accept_ccr (s_opts s))))),
                 [SrxLit l], INone)
            | LNonSync => (s2, [SrxLit l], INone)
            end
      | RcvMalformed => server_discard s SrCommand x1 SvMalformed SerrMalformedMessage
      | RcvBareLf => server_discard s SrCommand x1 SvBareLf SerrExpectedCrlfGotLf
      | RcvTooLong => server_discard s SrCommand x1 SvTooLong SerrCommandTooLong
      | RcvPanic => (s1, [], IPanic)
      | RcvFuel => (s1, [], IFuel)
      end
  | SrAuthenticateData x =>
      let '(x1, r) := rs_next (dec_authdata K) x in
      let s1 := s_set_recv s (SrAuthenticateData x1) in
      match r with
      | RcvMsg d =>
          server_finish s SrAuthenticateData x1 None (SvAuthData d)
            (SeAuthenticateDataReceived d)
      | RcvNeedMore => (s1, [], INeedMore)
      | RcvLit e => match e with end
      | RcvMalformed =>
          server_discard s SrAuthenticateData x1 SvMalformed SerrMalformedMessage
      | RcvBareLf => server_discard s SrAuthenticateData x1 SvBareLf SerrExpectedCrlfGotLf
      | RcvTooLong => server_discard s SrAuthenticateData x1 SvTooLong SerrCommandTooLong
      | RcvPanic => (s1, [], IPanic)
      | RcvFuel => (s1, [], IFuel)
      end
  | SrIdleAccept x => (s, [], INeedMore)
  | SrIdleDone x =>
      let '(x1, r) := rs_next (dec_idledone K) x in
      let s1 := s_set_recv s (SrIdleDone x1) in
      match r with
      | RcvMsg _ =>
          server_finish s SrIdleDone x1 (Some ExCommand) SvIdleDone SeIdleDoneReceived
      | RcvNeedMore => (s1, [], INeedMore)
      | RcvLit e => match e with end
      | RcvMalformed => server_discard s SrIdleDone x1 SvMalformed SerrMalformedMessage
      | RcvBareLf => server_discard s SrIdleDone x1 SvBareLf SerrExpectedCrlfGotLf
      | RcvTooLong => server_discard s SrIdleDone x1 SvTooLong SerrCommandTooLong
      | RcvPanic => (s1, [], IPanic)
      | RcvFuel => (s1, [], IFuel)
      end
  | SrDummy => (s, [], IPanic)
  end.

(** src/server.rs:405-415 [authenticate_continue]. *)
Definition server_authenticate_continue (s : server) (q : ccr) : server * (handle + ccr) :=
  match s_recv s with
  | SrAuthenticateData _ =>
      let '(s', h) := server_enqueue_continuation_request s q in (s', inl h)
  | _ => (s, inr q)
  end.

(** Enqueue and change state, common to src/server.rs:417-471. *)
Definition server_enqueue_and_change {A} (s : server) (r : response) (e : expected)
  : res (server * (handle + A)) :=
  let '(s', h) := server_enqueue_response s r in
  bind (sr_change_state (s_recv s') e) (fun x => Val (s_set_recv s' x, inl h)).

(** src/server.rs:417-431 [authenticate_finish]. *)
Definition server_authenticate_finish (s : server) (t : status)
  : res (server * (handle + status)) :=
  match s_recv s with
  | SrAuthenticateData _ => server_enqueue_and_change s (RStatus t) ExCommand
  | _ => Val (s, inr t)
  end.

(** src/server.rs:433-447 [idle_accept]. *)
Definition server_idle_accept (s : server) (q : ccr) : res (server * (handle + ccr)) :=
  match s_recv s with
  | SrIdleAccept _ => server_enqueue_and_change s (RCcr q) ExIdleDone
  | _ => Val (s, inr q)
  end.

(** src/server.rs:449-463 [idle_reject]. *)
Definition server_idle_reject (s : server) (t : status) : res (server * (handle + status)) :=
  match s_recv s with
  | SrIdleAccept _ => server_enqueue_and_change s (RStatus t) ExCommand
  | _ => Val (s, inr t)
  end.

(** src/server.rs:479-487 [enqueue_input]. *)
Definition server_enqueue_input (s : server) (x : bytes) : res server :=
  match s_recv s with
  | SrCommand r => Val (s_set_recv s (SrCommand (rs_enqueue_input r x)))
  | SrAuthenticateData r => Val (s_set_recv s (SrAuthenticateData (rs_enqueue_input r x)))
  | SrIdleAccept r => Val (s_set_recv s (SrIdleAccept (rs_enqueue_input r x)))
  | SrIdleDone r => Val (s_set_recv s (SrIdleDone (rs_enqueue_input r x)))
  | SrDummy => Panic
  end.

Definition srecv_state (r : srecv) : option rstate :=
  match r with
  | SrCommand x | SrAuthenticateData x | SrIdleAccept x | SrIdleDone x => Some x
  | SrDummy => None
  end.

(** Bytes held in the read buffer. *)
Definition server_buf (s : server) : bytes :=
  match srecv_state (s_recv s) with Some x => rs_buf x | None => [] end.

(** Bound for the loop of [server_next]. *)
Definition server_fuel (s : server) : nat := S (S (length (server_buf s))).

(** src/server.rs:489-499 [next]. *)
Fixpoint server_next_loop (K : Codecs) (fuel : nat) (s : server)
  : server * list srx * s_ires :=
  match fuel with
  | O => (s, [], IFuel)
  | S fuel' =>
      match server_progress_send K s with
      | (s1, INone) =>
          match server_progress_receive K s1 with
          | (s2, g, INone) =>
              let '(s3, g', r) := server_next_loop K fuel' s2 in (s3, g ++ g', r)
          | (s2, g, r) => (s2, g, r)
          end
      | (s1, r) => (s1, [], r)
      end
  end.

Definition server_next (K : Codecs) (s : server) : server * list srx * s_ires :=
  server_next_loop K (server_fuel s) s.

(** ** Runs of API calls *)

(** Calls of the public API of [Server]. *)
Inductive sop : Type :=
| SopEnqueue (r : response)
| SopEnqueueInput (x : bytes)
| SopAuthenticateContinue (q : ccr)
| SopAuthenticateFinish (t : status)
| SopIdleAccept (q : ccr)
| SopIdleReject (t : status)
| SopNext.

(** Chronological log, as for the client. *)
Inductive slog : Type :=
| SlEnqueue (r : response) (h : handle)
| SlInput (x : bytes)
| SlAuthContinue (q : ccr) (r : handle + ccr)
| SlAuthFinish (t : status) (r : handle + status)
| SlIdleAccept (q : ccr) (r : handle + ccr)
| SlIdleReject (t : status) (r : handle + status)
| SlRx (m : srx)
| SlNext (r : s_ires)
| SlPanic.

Definition s_is_panic (r : s_ires) : bool :=
  match r with IPanic => true | _ => false end.

Definition server_step (K : Codecs) (s : server) (o : sop) : option server * list slog :=
  match o with
  | SopEnqueue r =>
      let '(s', h) := server_enqueue_response s r in (Some s', [SlEnqueue r h])
  | SopEnqueueInput x =>
      match server_enqueue_input s x with
      | Val s' => (Some s', [SlInput x])
      | Panic => (None, [SlPanic])
      end
  | SopAuthenticateContinue q =>
      let '(s', r) := server_authenticate_continue s q in (Some s', [SlAuthContinue q r])
  | SopAuthenticateFinish t =>
      match server_authenticate_finish s t with
      | Val (s', r) => (Some s', [SlAuthFinish t r])
      | Panic => (None, [SlPanic])
      end
  | SopIdleAccept q =>
      match server_idle_accept s q with
      | Val (s', r) => (Some s', [SlIdleAccept q r])
      | Panic => (None, [SlPanic])
      end
  | SopIdleReject t =>
      match server_idle_reject s t with
      | Val (s', r) => (Some s', [SlIdleReject t r])
      | Panic => (None, [SlPanic])
      end
  | SopNext =>
      let '(s', g, r) := server_next K s in
      if s_is_panic r then (None, map SlRx g ++ [SlPanic])
      else (Some s', map SlRx g ++ [SlNext r])
  end.

Fixpoint server_run (K : Codecs) (s : server) (ops : list sop)
  : option server * list slog :=
  match ops with
  | [] => (Some s, [])
  | o :: ops' =>
      match server_step K s o with
      | (None, l) => (None, l)
      | (Some s', l) =>
          let '(s'', l') := server_run K s' ops' in (s'', l ++ l')
      end
  end.
