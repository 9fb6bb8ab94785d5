(** Model of proxy/src/proxy.rs: [start_conversation] (lines 186-237) and the handlers of
    events (239-473). Accepting and connecting (lines 60-177) is not modelled: the proxy
    starts with two streams as [connect_to_server] left them.

    [tokio::select!] drops the future that did not win. What the sockets do, and in which
    order the two futures are polled, is chosen by an arbitrary script. *)
From Coq Require Import List NArith Bool String.
From Verif Require Import Base Types Codec Handle Receive ClientSend Client ServerSend Server
  Stream StreamMachine ProxyUtil.
Import ListNotations.
Open Scope list_scope.

(** proxy/src/proxy.rs:39-41. *)
Definition LITERAL_ACCEPT_TEXT : bytes := list_byte_of_string "proxy: Literal accepted by proxy".
Definition LITERAL_REJECT_TEXT : bytes := list_byte_of_string "proxy: Literal rejected by proxy".
Definition COMMAND_REJECTED_TEXT : bytes := list_byte_of_string "proxy: Command rejected by server".

(** proxy/src/proxy.rs:209-217. *)
Definition proxy_soptions : soptions :=
  {| so_crlf_relaxed := so_crlf_relaxed soptions_default;
     so_max_literal_size := so_max_literal_size soptions_default;
     so_max_command_size := so_max_command_size soptions_default;
     so_accept_text := LITERAL_ACCEPT_TEXT;
     so_reject_text := LITERAL_REJECT_TEXT |}.

(** What a handler does: leave the loop, nothing, or one call. [unwrap]: the result of the
    call is unwrapped. *)
Inductive reaction (Op : Type) : Type :=
| RxAbort
| RxContinue
| RxCall (o : Op) (unwrap : bool).
Arguments RxAbort {Op}. Arguments RxContinue {Op}. Arguments RxCall {Op} o unwrap.

(** [Status::code], [Status::text] of [imap-types]. *)
Definition status_code (s : status) : option code :=
  match s with StTagged _ b | StUntagged b => sb_code b | StBye c _ => c end.
Definition status_text (s : status) : bytes :=
  match s with StTagged _ b | StUntagged b => sb_text b | StBye _ t => t end.

(** proxy/src/proxy.rs:377-391. *)
Definition modified_status (c : command) (s : status) : status :=
  match status_code s with
  | Some CodeAlert => StTagged (ctag c) (StatusBody SkBad (Some CodeAlert) (status_text s))
  | _ => StTagged (ctag c) (StatusBody SkBad None COMMAND_REJECTED_TEXT)
  end.

Section Proxy.
Context (K : Codecs) (Tc Ts : tls).

(** Stream to the client, with a [Server]; stream to the server, with a [Client]. *)
Notation SM := (server_machine K).
Notation CM := (client_machine K).

(** proxy/src/proxy.rs:239-328 [handle_client_event]. *)
Definition handle_client_event (r : sret SM) : reaction capp :=
  match r with
  | RetClosed | RetIo | RetTls => RxAbort
  | RetState _ => RxContinue
  | RetFlushed => RxContinue
  | RetEvent e =>
      match (e : sevent) with
      | SeGreetingSent _ => RxContinue
      | SeResponseSent _ _ => RxContinue
      | SeCommandReceived c => RxCall (CaEnqueueCommand c) false
      | SeCommandAuthenticateReceived ca =>
          RxCall (CaEnqueueCommand (command_of_authenticate ca)) false
      | SeAuthenticateDataReceived d => RxCall (CaSetAuthenticateData d) true
      | SeIdleCommandReceived t => RxCall (CaEnqueueCommand (Command t BIdle)) false
      | SeIdleDoneReceived => RxCall CaSetIdleDone false
      end
  end.

(** proxy/src/proxy.rs:330-473 [handle_server_event]. *)
Definition handle_server_event (r : sret CM) : reaction sapp :=
  match r with
  | RetClosed | RetIo | RetTls => RxAbort
  | RetState _ => RxContinue
  | RetFlushed => RxContinue
  | RetEvent e =>
      match (e : cevent) with
      | CeGreetingReceived _ => RxContinue
      | CeCommandSent _ _ => RxContinue
      | CeCommandRejected _ c s => RxCall (SaEnqueue (RStatus (modified_status c s))) false
      | CeAuthenticateStarted _ => RxContinue
      | CeAuthenticateContinuationRequestReceived _ q => RxCall (SaAuthenticateContinue q) true
      | CeAuthenticateStatusReceived _ _ s => RxCall (SaAuthenticateFinish s) true
      | CeDataReceived d => RxCall (SaEnqueue (RData (filter_data d))) false
      | CeStatusReceived s => RxCall (SaEnqueue (RStatus (filter_status s))) false
      | CeContinuationRequestReceived q => RxCall (SaEnqueue (RCcr (filter_continuation q))) false
      | CeIdleCommandSent _ => RxContinue
      | CeIdleAccepted _ q => RxCall (SaIdleAccept q) true
      | CeIdleRejected _ s => RxCall (SaIdleReject s) true
      | CeIdleDoneSent _ => RxContinue
      end
  end.

(** The calls of the handlers return [Err] (or [None]: [set_idle_done]). *)
Definition c_call_failed (e : clog) : bool :=
  match e with ClSetAuth _ (inr _) | ClSetDone None => true | _ => false end.
Definition s_call_failed (e : slog) : bool :=
  match e with
  | SlAuthContinue _ (inr _) | SlAuthFinish _ (inr _)
  | SlIdleAccept _ (inr _) | SlIdleReject _ (inr _) => true
  | _ => false
  end.

(** Chronological log: what happens at the two streams; the loop ends; [unwrap] panics. *)
Inductive plog : Type :=
| PlClient (e : xlog SM)
| PlServer (e : xlog CM)
| PlAbort
| PlPanic.

Inductive pend : Type := PeAborted | PePanicked | PeHung.

(** Before the greeting was received; in the loop; at the end. *)
Inductive pstate : Type :=
| PsGreeting (c : stream Tc) (s : xstate Ts CM)
| PsLoop (c : xstate Tc SM) (s : xstate Ts CM)
| PsEnd (why : pend).

(** proxy/src/proxy.rs:187-194; [gc] is the handle generator made by [Client::new]. *)
Definition proxy_start (c : stream Tc) (s : stream Ts) (gc : hgen) : pstate :=
  PsGreeting c (@XState Ts CM s (client_new gc false) FIdle).

(** Actions of the environment on a stream. *)
Inductive io : Type :=
| IoPoll                     (** the future is created and polled *)
| IoRead (r : option bytes)
| IoWrite (r : option nat).

Definition io_act (M : machine) (a : io) : act M :=
  match a with
  | IoPoll => ANext
  | IoRead r => ARead r
  | IoWrite r => AWrite r
  end.

(** The result of the future, if it is ready. *)
Fixpoint returned {M} (l : list (xlog M)) : option (sret M) :=
  match l with
  | [] => None
  | XRet r :: _ => Some r
  | _ :: l' => returned l'
  end.

Definition is_xpanic {M} (e : xlog M) : bool := match e with XPanic => true | _ => false end.

(** The task does not continue: a panic, or an infinite loop. *)
Definition stopped {M} (l : list (xlog M)) : pend :=
  if existsb is_xpanic l then PePanicked else PeHung.

Definition is_dead (f : fut) : bool := match f with FDead => true | _ => false end.

(** proxy/src/proxy.rs:224-226: the stream to the client makes progress. *)
Definition client_side (fuel : nat) (c : xstate Tc SM) (s : xstate Ts CM) (a : io)
  : pstate * list plog :=
  let '(c1, l1) := xstep Tc SM fuel c (io_act SM a) in
  let l := map PlClient l1 in
  if is_dead (x_f c1) then (PsEnd (stopped l1), l)
  else
    match returned l1 with
    | None => (PsLoop c1 s, l)
    | Some r =>
        let '(s1, l2) := xstep Ts CM fuel s ACancel in
        let l := l ++ map PlServer l2 in
        match handle_client_event r with
        | RxAbort => (PsEnd PeAborted, l ++ [PlAbort])
        | RxContinue => (PsLoop c1 s1, l)
        | RxCall o unwrap =>
            match m_call CM (x_m s1) o with
            | None => (PsEnd PePanicked, l ++ [PlServer XPanic])
            | Some (m, e) =>
                let l := l ++ [PlServer (@XCall CM o e)] in
                if unwrap && c_call_failed e then (PsEnd PePanicked, l ++ [PlPanic])
                else (PsLoop c1 (XState (x_s s1) m (x_f s1)), l)
            end
        end
    end.

(** proxy/src/proxy.rs:227-229: the stream to the server makes progress. *)
Definition server_side (fuel : nat) (c : xstate Tc SM) (s : xstate Ts CM) (a : io)
  : pstate * list plog :=
  let '(s1, l1) := xstep Ts CM fuel s (io_act CM a) in
  let l := map PlServer l1 in
  if is_dead (x_f s1) then (PsEnd (stopped l1), l)
  else
    match returned l1 with
    | None => (PsLoop c s1, l)
    | Some r =>
        let '(c1, l2) := xstep Tc SM fuel c ACancel in
        let l := l ++ map PlClient l2 in
        match handle_server_event r with
        | RxAbort => (PsEnd PeAborted, l ++ [PlAbort])
        | RxContinue => (PsLoop c1 s1, l)
        | RxCall o unwrap =>
            match m_call SM (x_m c1) o with
            | None => (PsEnd PePanicked, l ++ [PlClient XPanic])
            | Some (m, e) =>
                let l := l ++ [PlClient (@XCall SM o e)] in
                if unwrap && s_call_failed e then (PsEnd PePanicked, l ++ [PlPanic])
                else (PsLoop (XState (x_s c1) m (x_f c1)) s1, l)
            end
        end
    end.

(** proxy/src/proxy.rs:194-220: wait for the greeting; [gs] is the handle generator made by
    [Server::new]. *)
Definition greeting_side (fuel : nat) (gs : hgen) (c : stream Tc) (s : xstate Ts CM) (a : io)
  : pstate * list plog :=
  let '(s1, l1) := xstep Ts CM fuel s (io_act CM a) in
  let l := map PlServer l1 in
  if is_dead (x_f s1) then (PsEnd (stopped l1), l)
  else
    match returned l1 with
    | None => (PsGreeting c s1, l)
    | Some (RetEvent e) =>
        match (e : cevent) with
        | CeGreetingReceived g =>
            (PsLoop (@XState Tc SM c (server_new gs proxy_soptions (filter_greeting g)) FIdle) s1, l)
        | _ => (PsEnd PeAborted, l ++ [PlAbort])
        end
    | Some _ => (PsEnd PeAborted, l ++ [PlAbort])
    end.

(** An action at the stream to the client ([false]) or to the server ([true]). *)
Definition pstep (fuel : nat) (gs : hgen) (p : pstate) (a : bool * io) : pstate * list plog :=
  match p, a with
  | PsGreeting c s, (true, a) => greeting_side fuel gs c s a
  | PsGreeting _ _, (false, _) => (p, [])
  | PsLoop c s, (true, a) => server_side fuel c s a
  | PsLoop c s, (false, a) => client_side fuel c s a
  | PsEnd _, _ => (p, [])
  end.

Fixpoint prun (fuel : nat) (gs : hgen) (p : pstate) (acts : list (bool * io))
  : pstate * list plog :=
  match acts with
  | [] => (p, [])
  | a :: acts' =>
      let '(p1, l1) := pstep fuel gs p a in
      let '(p2, l2) := prun fuel gs p1 acts' in (p2, l1 ++ l2)
  end.
End Proxy.

Arguments PlClient {K} e. Arguments PlServer {K} e. Arguments PlAbort {K}. Arguments PlPanic {K}.
Arguments PsGreeting {K Tc Ts} c s. Arguments PsLoop {K Tc Ts} c s. Arguments PsEnd {K Tc Ts} why.
