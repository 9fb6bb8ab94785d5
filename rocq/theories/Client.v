(** Model of src/client.rs and src/client_receive.rs. *)
From Coq Require Import List NArith Bool.
From Verif Require Import Base Types Codec Handle Receive ClientSend.
Import ListNotations.

(** src/client_receive.rs:5-10 [ClientReceiveState]. *)
Inductive crecv : Type :=
| CrGreeting (s : rstate)
| CrResponse (s : rstate)
| CrDummy.

(** src/client_receive.rs:13-23 [change_state]. *)
Definition cr_change_state (r : crecv) : res crecv :=
  match r with
  | CrGreeting s => Val (CrResponse (rs_change_codec s))
  | CrResponse s => Val (CrResponse s)
  | CrDummy => Panic
  end.

(** src/client.rs:43-47 [Client]. *)
Record client : Type := ClientSt {
  c_gen : hgen;
  c_send : csend;
  c_recv : crecv
}.

Definition c_set_send (c : client) (s : csend) : client :=
  {| c_gen := c_gen c; c_send := s; c_recv := c_recv c |}.

Definition c_set_recv (c : client) (r : crecv) : client :=
  {| c_gen := c_gen c; c_send := c_send c; c_recv := r |}.

(** src/client.rs:50-68 [new]; [g] is the generator made by the static
    [HANDLE_GENERATOR_GENERATOR], [relaxed] is [Options::crlf_relaxed]. *)
Definition client_new (g : hgen) (relaxed : bool) : client :=
  {| c_gen := g; c_send := cs_new; c_recv := CrGreeting (rs_new relaxed None) |}.

(** src/client.rs:75-79 [enqueue_command]. *)
Definition client_enqueue_command (c : client) (cmd : command) : client * handle :=
  let '(g', h) := hgen_generate (c_gen c) in
  ({| c_gen := g'; c_send := cs_enqueue_command (c_send c) h cmd; c_recv := c_recv c |}, h).

(** src/client.rs:240-245 [set_authenticate_data]. *)
Definition client_set_authenticate_data (K : Codecs) (c : client) (d : auth_data)
  : res (client * (handle + auth_data)) :=
  bind (cs_set_authenticate_data K (c_send c) d) (fun '(s, r) => Val (c_set_send c s, r)).

(** src/client.rs:247-249 [set_idle_done]. *)
Definition client_set_idle_done (K : Codecs) (c : client) : res (client * option handle) :=
  bind (cs_set_idle_done K (c_send c)) (fun '(s, r) => Val (c_set_send c s, r)).

(** src/client.rs:264-270 [enqueue_input]. *)
Definition client_enqueue_input (c : client) (x : bytes) : res client :=
  match c_recv c with
  | CrGreeting s => Val (c_set_recv c (CrGreeting (rs_enqueue_input s x)))
  | CrResponse s => Val (c_set_recv c (CrResponse (rs_enqueue_input s x)))
  | CrDummy => Panic
  end.

Definition c_ires := ires cevent cerror.

(** Ghost output of [progress_receive] and [next], not part of the Rust code: the raw
    bytes that were removed from the read buffer and the codec's verdict on them. *)
Inductive cverdict : Type :=
| CvGreeting (g : greeting)
| CvResponse (r : response)
| CvMalformed
| CvBareLf.
Record crx : Type := Crx { crx_raw : bytes; crx_verdict : cverdict }.

(** src/client.rs:81-104 [progress_send]. *)
Definition client_progress_send (K : Codecs) (c : client) : client * c_ires :=
  match c_recv c with
  | CrGreeting _ => (c, INone)
  | _ =>
      let '(s, r) := cs_next K (c_send c) in
      let c1 := c_set_send c s in
      match r with
      | CsOk (Some (CvCommand h cmd)) => (c1, IEvent (CeCommandSent h cmd))
      | CsOk (Some (CvAuthenticate h)) => (c1, IEvent (CeAuthenticateStarted h))
      | CsOk (Some (CvIdle h)) => (c1, IEvent (CeIdleCommandSent h))
      | CsOk (Some (CvIdleDone h)) => (c1, IEvent (CeIdleDoneSent h))
      | CsOk None => (c1, INone)
      | CsOutput b => (c1, IOutput b)
      | CsPanic => (c1, IPanic)
      end
  end.

(** src/client.rs:171-229: what happens with a decoded response. *)
Definition client_handle_response (c : client) (r : response) : client * c_ires :=
  match r with
  | RStatus st =>
      let '(s, t) := cs_maybe_terminate (c_send c) st in
      let c1 := c_set_send c s in
      match t with
      | Some (CtLiteralRejected h cmd) => (c1, IEvent (CeCommandRejected h cmd st))
      | Some (CtAuthenticateAccepted h ca)
      | Some (CtAuthenticateRejected h ca) =>
          (c1, IEvent (CeAuthenticateStatusReceived h ca st))
      | Some (CtIdleRejected h) => (c1, IEvent (CeIdleRejected h st))
      | None => (c1, IEvent (CeStatusReceived st))
      end
  | RData d => (c, IEvent (CeDataReceived d))
  | RCcr q =>
      let '(s1, b) := cs_literal_continue (c_send c) in
      if b then (c_set_send c s1, INone)
      else
        let '(s2, oh) := cs_authenticate_continue s1 in
        match oh with
        | Some h =>
            (c_set_send c s2, IEvent (CeAuthenticateContinuationRequestReceived h q))
        | None =>
            let '(s3, oh') := cs_idle_continue s2 in
            match oh' with
            | Some h => (c_set_send c s3, IEvent (CeIdleAccepted h q))
            | None => (c_set_send c s3, IEvent (CeContinuationRequestReceived q))
            end
        end
  end.

(** [discard_message] followed by returning an error, common to the arms
    src/client.rs:117-130,151-164. *)
Definition client_discard (c : client) (wrap : rstate -> crecv) (s : rstate)
    (v : cverdict) (mk : bytes -> cerror) : client * list crx * c_ires :=
  match rs_discard_message s with
  | Panic => (c_set_recv c (wrap s), [], IPanic)
  | Val (s', d) => (c_set_recv c (wrap s'), [Crx d v], IError (mk d))
  end.

(** src/client.rs:106-238 [progress_receive]. [fuel] bounds the loop, which is repeated
    only after a literal was announced. *)
Fixpoint client_progress_receive (K : Codecs) (fuel : nat) (c : client)
  : client * list crx * c_ires :=
  match fuel with
  | O => (c, [], IFuel)
  | S fuel' =>
    match c_recv c with
    | CrGreeting s =>
        let '(s1, r) := rs_next (dec_greeting K) s in
        let c1 := c_set_recv c (CrGreeting s1) in
        match r with
        | RcvMsg g =>
            match rs_finish_message s1 with
            | Panic => (c1, [], IPanic)
            | Val s2 =>
                match cr_change_state (CrGreeting s2) with
                | Panic => (c1, [], IPanic)
                | Val r2 =>
                    (c_set_recv c r2, [Crx (firstn (rs_seen s1) (rs_buf s1)) (CvGreeting g)],
                     IEvent (CeGreetingReceived g))
                end
            end
        | RcvNeedMore => (c1, [], INeedMore)
        | RcvMalformed => client_discard c CrGreeting s1 CvMalformed CerrMalformedMessage
        | RcvBareLf => client_discard c CrGreeting s1 CvBareLf CerrExpectedCrlfGotLf
        | RcvTooLong => (c1, [], IPanic)
        | RcvLit e => match e with end
        | RcvPanic => (c1, [], IPanic)
        | RcvFuel => (c1, [], IFuel)
        end
    | CrResponse s =>
        let '(s1, r) := rs_next (dec_response K) s in
        let c1 := c_set_recv c (CrResponse s1) in
        match r with
        | RcvMsg resp =>
            match rs_finish_message s1 with
            | Panic => (c1, [], IPanic)
            | Val s2 =>
                let c2 := c_set_recv c (CrResponse s2) in
                let '(c3, ir) := client_handle_response c2 resp in
                (c3, [Crx (firstn (rs_seen s1) (rs_buf s1)) (CvResponse resp)], ir)
            end
        | RcvNeedMore => (c1, [], INeedMore)
        | RcvLit n =>
            client_progress_receive K fuel'
              (c_set_recv c (CrResponse (rs_start_literal s1 n)))
        | RcvMalformed => client_discard c CrResponse s1 CvMalformed CerrMalformedMessage
        | RcvBareLf => client_discard c CrResponse s1 CvBareLf CerrExpectedCrlfGotLf
        | RcvTooLong => (c1, [], IPanic)
        | RcvPanic => (c1, [], IPanic)
        | RcvFuel => (c1, [], IFuel)
        end
    | CrDummy => (c, [], IPanic)
    end
  end.

(** Bytes held in the read buffer. *)
Definition client_buf (c : client) : bytes :=
  match c_recv c with
  | CrGreeting s | CrResponse s => rs_buf s
  | CrDummy => []
  end.

(** Bound for the loops of [client_next]: every repetition reads at least one byte. *)
Definition client_fuel (c : client) : nat := S (S (length (client_buf c))).

(** src/client.rs:272-282 [next]. *)
Fixpoint client_next_loop (K : Codecs) (fuel : nat) (c : client)
  : client * list crx * c_ires :=
  match fuel with
  | O => (c, [], IFuel)
  | S fuel' =>
      match client_progress_send K c with
      | (c1, INone) =>
          match client_progress_receive K (client_fuel c1) c1 with
          | (c2, g, INone) =>
              let '(c3, g', r) := client_next_loop K fuel' c2 in (c3, g ++ g', r)
          | (c2, g, r) => (c2, g, r)
          end
      | (c1, r) => (c1, [], r)
      end
  end.

Definition client_next (K : Codecs) (c : client) : client * list crx * c_ires :=
  client_next_loop K (client_fuel c) c.

(** ** Runs of API calls *)

(** Calls of the public API of [Client]. *)
Inductive cop : Type :=
| CopEnqueueCommand (c : command)
| CopEnqueueInput (x : bytes)
| CopSetAuthenticateData (d : auth_data)
| CopSetIdleDone
| CopNext.

(** Chronological log: calls with their results. A message removed from the read
    buffer during a call of [next] appears as [ClRx] before the [ClNext] of that call. *)
Inductive clog : Type :=
| ClEnqueue (c : command) (h : handle)
| ClInput (x : bytes)
| ClSetAuth (d : auth_data) (r : handle + auth_data)
| ClSetDone (r : option handle)
| ClRx (m : crx)
| ClNext (r : c_ires)
| ClPanic.

Definition c_is_panic (r : c_ires) : bool :=
  match r with IPanic => true | _ => false end.

(** One API call; [None] as new state: the call panicked. *)
Definition client_step (K : Codecs) (c : client) (o : cop) : option client * list clog :=
  match o with
  | CopEnqueueCommand cmd =>
      let '(c', h) := client_enqueue_command c cmd in (Some c', [ClEnqueue cmd h])
  | CopEnqueueInput x =>
      match client_enqueue_input c x with
      | Val c' => (Some c', [ClInput x])
      | Panic => (None, [ClPanic])
      end
  | CopSetAuthenticateData d =>
      match client_set_authenticate_data K c d with
      | Val (c', r) => (Some c', [ClSetAuth d r])
      | Panic => (None, [ClPanic])
      end
  | CopSetIdleDone =>
      match client_set_idle_done K c with
      | Val (c', r) => (Some c', [ClSetDone r])
      | Panic => (None, [ClPanic])
      end
  | CopNext =>
      let '(c', g, r) := client_next K c in
      if c_is_panic r then (None, map ClRx g ++ [ClPanic])
      else (Some c', map ClRx g ++ [ClNext r])
  end.

(** A run ends at the first panic. *)
Fixpoint client_run (K : Codecs) (c : client) (ops : list cop)
  : option client * list clog :=
  match ops with
  | [] => (Some c, [])
  | o :: ops' =>
      match client_step K c o with
      | (None, l) => (None, l)
      | (Some c', l) =>
          let '(c'', l') := client_run K c' ops' in (c'', l ++ l')
      end
  end.
