(** Model of the example programs, examples/*.rs: applications that use a client or a server.

    A program waits for [Stream::next], and in two of them also for a line typed by the user
    ([tokio::select!]). What it does when one of the two arrives is a [body]: calls of the
    client or server, until it waits again. Printing is left out. Texts and tags that are
    constants of the programs are valid, the [unwrap]s on their construction succeed; so does
    connecting, and reading lines. *)
From Coq Require Import List NArith Bool PeanoNat.
From Coq Require String.
Import (notations) String.
From Verif Require Import Base Types Codec Handle ClientSend Client ServerSend Server Stream
  StreamMachine.
Import ListNotations.
Open Scope list_scope.

Definition lit (s : String.string) : bytes := String.list_byte_of_string s.
Arguments lit s%string_scope.

(** [==] on handles, src/handle.rs:11 (derived). *)
Definition handle_eqb (a b : handle) : bool :=
  N.eqb (h_gen a) (h_gen b) && N.eqb (h_id a) (h_id b).

(** Code between two await points; [P] is where it waits next, with the local variables. *)
Inductive body (M : machine) (P : Type) : Type :=
| Again (p : P)                               (** waits for [Stream::next] (or a line) *)
| Return                                      (** [main] returns *)
| Fails                                       (** [assert_eq!], [unwrap] or [panic!] *)
| Does (o : m_op M) (k : m_ret M -> body M P). (** a call; what follows depends on its result *)
Arguments Again {M P} p. Arguments Return {M P}. Arguments Fails {M P}. Arguments Does {M P} o k.

(** [pr_event p coin e]: [next] has returned [Ok(e)]; [coin] is the value of [rand::random()].
    [pr_line p x]: the line [x] was typed; [None] if the program does not wait for one. *)
Record program (M : machine) : Type := {
  pr_st : Type;
  pr_start : pr_st;
  pr_event : pr_st -> bool -> m_ev M -> body M pr_st;
  pr_line : pr_st -> bytes -> option (body M pr_st)
}.
Arguments pr_st {M} p. Arguments pr_start {M} p. Arguments pr_event {M} p. Arguments pr_line {M} p.

Section Programs.
Context (K : Codecs).
Notation CM := (client_machine K).
Notation SM := (server_machine K).

(** [assert_eq!(a, b)] *)
Definition assert_same {M P} (a b : handle) (k : body M P) : body M P :=
  if handle_eqb a b then k else Fails.

(** The calls, with their results. (A call has a result of its own kind: the other cases do not
    occur.) *)
Definition enqueue_command {P} (c : command) (k : handle -> body CM P) : body CM P :=
  @Does CM P (CaEnqueueCommand c) (fun r => match r with ClEnqueue _ h => k h | _ => Fails end).
Definition set_authenticate_data {P} (d : auth_data) (k : handle + auth_data -> body CM P)
  : body CM P :=
  @Does CM P (CaSetAuthenticateData d) (fun r => match r with ClSetAuth _ x => k x | _ => Fails end).
Definition set_idle_done {P} (k : option handle -> body CM P) : body CM P :=
  @Does CM P CaSetIdleDone (fun r => match r with ClSetDone x => k x | _ => Fails end).
Definition enqueue_response {P} (x : response) (k : handle -> body SM P) : body SM P :=
  @Does SM P (SaEnqueue x) (fun r => match r with SlEnqueue _ h => k h | _ => Fails end).
Definition authenticate_continue {P} (q : ccr) (k : handle + ccr -> body SM P) : body SM P :=
  @Does SM P (SaAuthenticateContinue q)
    (fun r => match r with SlAuthContinue _ x => k x | _ => Fails end).
Definition authenticate_finish {P} (t : status) (k : handle + status -> body SM P) : body SM P :=
  @Does SM P (SaAuthenticateFinish t)
    (fun r => match r with SlAuthFinish _ x => k x | _ => Fails end).
Definition idle_accept {P} (q : ccr) (k : handle + ccr -> body SM P) : body SM P :=
  @Does SM P (SaIdleAccept q) (fun r => match r with SlIdleAccept _ x => k x | _ => Fails end).
Definition idle_reject {P} (t : status) (k : handle + status -> body SM P) : body SM P :=
  @Does SM P (SaIdleReject t) (fun r => match r with SlIdleReject _ x => k x | _ => Fails end).

(** [result.unwrap()] *)
Definition unwrapped {M P A} (r : handle + A) (k : body M P) : body M P :=
  match r with inl _ => k | inr _ => Fails end.

Definition tagged (t : tag) (k : status_kind) (text : bytes) : status :=
  StTagged t (StatusBody k None text).

Definition no_line {M P} (p : P) (x : bytes) : option (body M P) := None.

(** ** examples/client.rs *)

(** Lines 17-22: waits for the greeting. Lines 31-63: main loop, with the handle of LOGIN. *)
Inductive cp : Type := CpGreeting | CpMain (h : handle).

Section Client.
(** [CommandBody::login("Al¹cE", "pa²²w0rd")]; what a command is, other than AUTHENTICATE and
    IDLE, is opaque (Types.v). *)
Context (login : bytes).

Definition client_command : command := Command (lit "A1") (BOther login).

(** Also of examples/client_std.rs. *)
Definition client_event (p : cp) (coin : bool) (e : cevent) : body CM cp :=
  match p with
  | CpGreeting =>
      match e with
      | CeGreetingReceived _ =>
          (* lines 26-29 *)
          enqueue_command client_command (fun h => Again (CpMain h))
      | _ => Again CpGreeting
      end
  | CpMain h =>
      match e with
      | CeCommandSent h' _ => assert_same h h' (Again p)        (* lines 33-39 *)
      | CeCommandRejected h' _ _ => assert_same h h' (Again p)  (* lines 40-47 *)
      | _ => Again p
      end
  end.

Definition client_rs : program CM :=
  Build_program CM cp CpGreeting client_event no_line.
End Client.

(** ** examples/client_authenticate.rs *)

(** Lines 20-25: waits for the greeting. Lines 40-59: main loop, with the data that is left. *)
Inductive ap : Type := ApGreeting | ApMain (ds : list auth_data).

Section ClientAuthenticate.
(** The generated tag, line 29 (TagGen.v). *)
Context (t : tag).

Definition authenticate_command : command := Command t (BAuthenticate AMLogin None).

(** Lines 35-38. *)
Definition authenticate_data : list auth_data :=
  [ADContinue (lit "alice"); ADContinue (lit "password")].

Definition client_authenticate_event (p : ap) (coin : bool) (e : cevent) : body CM ap :=
  match p with
  | ApGreeting =>
      match e with
      | CeGreetingReceived _ =>
          (* lines 30-33 *)
          enqueue_command authenticate_command (fun _ => Again (ApMain authenticate_data))
      | _ => Again ApGreeting
      end
  | ApMain ds =>
      match e with
      | CeAuthenticateContinuationRequestReceived _ _ =>
          match ds with
          | d :: ds' =>
              (* lines 46-47 *)
              set_authenticate_data d (fun r => unwrapped r (Again (ApMain ds')))
          | [] =>
              (* lines 48-52 *)
              set_authenticate_data ADCancel (fun r => unwrapped r (Again (ApMain [])))
          end
      | CeAuthenticateStatusReceived _ _ _ => Return  (* lines 54-56 *)
      | _ => Again p
      end
  end.

Definition client_authenticate_rs : program CM :=
  Build_program CM ap ApGreeting client_authenticate_event no_line.
End ClientAuthenticate.

(** ** examples/client_idle.rs *)

(** Lines 20-25: waits for the greeting. Lines 36-73: IDLE. Lines 75-90: waits for the status. *)
Inductive ip : Type := IpGreeting | IpIdle | IpStatus.

Definition idle_tag : tag := lit "A1".
Definition idle_command : command := Command idle_tag BIdle.

Definition client_idle_event (p : ip) (coin : bool) (e : cevent) : body CM ip :=
  match p with
  | IpGreeting =>
      match e with
      | CeGreetingReceived _ =>
          (* lines 30-34 *)
          enqueue_command idle_command (fun _ => Again IpIdle)
      | _ => Again IpGreeting
      end
  | IpIdle =>
      match e with
      | CeIdleRejected _ _ => Again IpStatus   (* lines 46-49 *)
      | CeIdleDoneSent _ => Again IpStatus     (* lines 50-53 *)
      | _ => Again IpIdle
      end
  | IpStatus =>
      match e with
      | CeStatusReceived (StTagged t _) =>
          (* lines 77-85 *)
          if bytes_eqb t idle_tag then Return else Again IpStatus
      | _ => Again IpStatus
      end
  end.

(** Lines 65-71. *)
Definition client_idle_line (p : ip) (x : bytes) : option (body CM ip) :=
  match p with
  | IpIdle => Some (set_idle_done (fun _ => Again IpIdle))
  | _ => None
  end.

Definition client_idle_rs : program CM :=
  Build_program CM ip IpGreeting client_idle_event client_idle_line.

(** ** examples/server.rs *)

(** Lines 20-28: waits until the greeting is sent. Lines 32-51: main loop, with [handles]. *)
Inductive sp : Type := SpGreeting | SpMain (hs : list handle).

Definition server_event (p : sp) (coin : bool) (e : sevent) : body SM sp :=
  match p with
  | SpGreeting =>
      match e with
      | SeGreetingSent _ => Again (SpMain [])
      | _ => Again SpGreeting
      end
  | SpMain hs =>
      match e with
      | SeCommandReceived c =>
          (* lines 34-39 *)
          enqueue_response (RStatus (tagged (ctag c) SkNo (lit "...")))
            (fun h => Again (SpMain (hs ++ [h])))
      | SeResponseSent h' _ =>
          (* lines 40-46 *)
          match hs with
          | h :: hs' => assert_same h h' (Again (SpMain hs'))
          | [] => Fails
          end
      | _ => Again p
      end
  end.

Definition server_rs : program SM :=
  Build_program SM sp SpGreeting server_event no_line.

(** ** examples/server_authenticate.rs *)

(** Lines 19-24: waits until the greeting is sent. Lines 28-77: main loop, with
    [current_authenticate_tag]. *)
Inductive sap : Type := SapGreeting | SapMain (cur : option tag).

Definition server_authenticate_event (p : sap) (coin : bool) (e : sevent) : body SM sap :=
  match p with
  | SapGreeting =>
      match e with
      | SeGreetingSent _ => Again (SapMain None)
      | _ => Again SapGreeting
      end
  | SapMain cur =>
      match e with
      | SeCommandAuthenticateReceived ca =>
          if coin then
            (* lines 39-46 *)
            authenticate_continue (CcrBasic None (lit "I need more data..."))
              (fun r => unwrapped r (Again (SapMain (Some (ca_tag ca)))))
          else
            (* lines 47-53 *)
            authenticate_finish (tagged (ca_tag ca) SkOk (lit "Thanks, that's already enough!"))
              (fun r => unwrapped r (Again (SapMain cur)))
      | SeAuthenticateDataReceived _ =>
          if coin then
            (* lines 56-61 *)
            authenticate_continue (CcrBasic None (lit "...more..."))
              (fun r => unwrapped r (Again (SapMain cur)))
          else
            (* lines 62-68 *)
            match cur with
            | None => Fails
            | Some t =>
                authenticate_finish (tagged t SkOk (lit "Thanks!"))
                  (fun r => unwrapped r (Again (SapMain None)))
            end
      | SeCommandReceived c =>
          (* lines 70-74 *)
          enqueue_response (RStatus (tagged (ctag c) SkNo (lit "Please use AUTHENTICATE")))
            (fun _ => Again (SapMain cur))
      | _ => Again p
      end
  end.

Definition server_authenticate_rs : program SM :=
  Build_program SM sap SapGreeting server_authenticate_event no_line.

(** ** examples/server_idle.rs *)

(** Lines 25-30: waits until the greeting is sent. Lines 37-104: main loop, with
    [current_idle_tag]. *)
Inductive sip : Type := SipGreeting | SipMain (cur : option tag).

Section ServerIdle.
(** [Data::Expunge(1)]; opaque, as LOGIN. *)
Context (expunge : bytes).

Definition server_idle_event (p : sip) (coin : bool) (e : sevent) : body SM sip :=
  match p with
  | SipGreeting =>
      match e with
      | SeGreetingSent _ => Again (SipMain None)
      | _ => Again SipGreeting
      end
  | SipMain cur =>
      match e with
      | SeIdleCommandReceived t => Again (SipMain (Some t))  (* lines 41-45 *)
      | SeIdleDoneReceived =>
          (* lines 46-60 *)
          match cur with
          | Some t =>
              enqueue_response (RStatus (tagged t SkOk (lit "...")))
                (fun _ => Again (SipMain None))
          | None => Again p
          end
      | _ => Again p
      end
  end.

(** Lines 66-102. *)
Definition server_idle_line (p : sip) (x : bytes) : option (body SM sip) :=
  match p with
  | SipGreeting => None
  | SipMain cur => Some (
      if bytes_eqb x (lit "ok") then
        idle_accept (CcrBasic None (lit "...")) (fun _ => Again p)
      else if bytes_eqb x (lit "no") then
        match cur with
        | None => Again p
        | Some t => idle_reject (tagged t SkNo (lit "...")) (fun _ => Again p)
        end
      else if bytes_eqb x (lit "expunge") then
        enqueue_response (RData (DOther expunge)) (fun _ => Again p)
      else Again p)
  end.

Definition server_idle_rs : program SM :=
  Build_program SM sip SipGreeting server_idle_event server_idle_line.
End ServerIdle.
End Programs.

(** ** Running a program

    Which logs of a stream (Stream.v) are logs of a stream that the program uses. *)

(** How a program ends. *)
Inductive ending (M : machine) : Type :=
| EndReturned                 (** [main] returns *)
| EndFailed                   (** an assertion or an [unwrap] of the program fails *)
| EndError (r : sret M)       (** [stream.next(..).await.unwrap()] on an error *)
| EndPanicked.                (** the library panics, or does not return *)
Arguments EndReturned {M}. Arguments EndFailed {M}. Arguments EndError {M} r.
Arguments EndPanicked {M}.

Section Run.
Context {M : machine} (P : program M).

Inductive pstate : Type :=
| PAt (p : pr_st P)
| PIn (o : m_op M) (k : m_ret M -> body M (pr_st P))
| PEnd (h : ending M).

Definition resume (b : body M (pr_st P)) : pstate :=
  match b with
  | Again p => PAt p
  | Return => PEnd EndReturned
  | Fails => PEnd EndFailed
  | Does o k => PIn o k
  end.

(** Entries that belong to a future of [next] under way. *)
Definition inside (e : xlog M) : bool :=
  match e with
  | XStartNext | XGive _ | XNext _ | XRead _ | XWrote _ => true
  | _ => false
  end.

Inductive pstep : pstate -> xlog M -> pstate -> Prop :=
| ps_inside : forall p e, inside e = true -> pstep (PAt p) e (PAt p)
| ps_event : forall p coin e, pstep (PAt p) (XRet (RetEvent e)) (resume (pr_event P p coin e))
| ps_error : forall p r, (forall e, r <> RetEvent e) -> pstep (PAt p) (XRet r) (PEnd (EndError r))
(** [tokio::select!]: a line is read while [next] is pending; its future is dropped. *)
| ps_line : forall p x b, pr_line P p x = Some b -> pstep (PAt p) XCancel (resume b)
(** A line is read before [next] is polled. *)
| ps_line_first : forall p x o k r, pr_line P p x = Some (Does o k) ->
    pstep (PAt p) (XCall o r) (resume (k r))
| ps_call : forall o k r, pstep (PIn o k) (XCall o r) (resume (k r))
| ps_panic_at : forall p e, e = XPanic \/ e = XHang -> pstep (PAt p) e (PEnd EndPanicked)
| ps_panic_in : forall o k, pstep (PIn o k) XPanic (PEnd EndPanicked).

(** From the start, with the log [l], to [st]. *)
Inductive psteps : list (xlog M) -> pstate -> Prop :=
| pss_start : psteps [] (PAt (pr_start P))
| pss_step : forall l st e st', psteps l st -> pstep st e st' -> psteps (l ++ [e]) st'.
End Run.
Arguments PAt {M P} p. Arguments PIn {M P} o k. Arguments PEnd {M P} h.
Arguments resume {M P} b. Arguments psteps {M} P.

(** ** examples/client_std.rs

    The client without [Stream], on a blocking socket: lines 20-34 and 43-89. The events are
    handled as in examples/client.rs. *)
Section Std.
Context (K : Codecs) (login : bytes).
Notation CM := (client_machine K).
Notation P := (client_rs K login).

Inductive ststate : Type :=
| StNext (p : cp)                  (** about to call [client.next()] *)
| StRead (p : cp)                  (** [stream.read(&mut read_buffer)] *)
| StGive (p : cp) (b : bytes)      (** [client.enqueue_input(&read_buffer[0..count])] *)
| StWrite (p : cp) (b : bytes)     (** [stream.write_all(&bytes)] *)
| StIn (o : capp) (k : clog -> body CM cp)
| StEnd (h : ending CM).

Definition st_resume (b : body CM cp) : ststate :=
  match b with
  | Again p => StNext p
  | Return => StEnd EndReturned
  | Fails => StEnd EndFailed
  | Does o k => StIn o k
  end.

(** Line 17: 128 bytes. *)
Definition read_size : nat := 128.

Inductive ststep : ststate -> xlog CM -> ststate -> Prop :=
| sts_event : forall p (e : cevent),
    ststep (StNext p) (@XNext CM (MEvent e)) (st_resume (client_event K login p false e))
| sts_need_more : forall p, ststep (StNext p) (@XNext CM MNeedMore) (StRead p)
(** Line 27: [interrupt => panic!(..)]; lines 50-52. *)
| sts_output : forall p b,
    ststep (StNext p) (@XNext CM (MOutput b))
      (match p with CpGreeting => StEnd EndFailed | CpMain _ => StWrite p b end)
(** Lines 27, 53-55: the program panics on errors. *)
| sts_error : forall p (e : cerror),
    ststep (StNext p) (@XNext CM (MError e)) (StEnd (EndError (RetState (e : m_er CM))))
| sts_read : forall p b, length b <= read_size -> ststep (StRead p) (XRead b) (StGive p b)
| sts_read_error : forall p, ststep (StRead p) (XRet RetIo) (StEnd (EndError RetIo))
| sts_give : forall p b, ststep (StGive p b) (XGive b) (StNext p)
| sts_wrote : forall p b, ststep (StWrite p b) (XWrote b) (StNext p)
| sts_write_error : forall p b, ststep (StWrite p b) (XRet RetIo) (StEnd (EndError RetIo))
| sts_call : forall o k r, ststep (StIn o k) (@XCall CM o r) (st_resume (k r)).

Inductive ststeps : list (xlog CM) -> ststate -> Prop :=
| sss_start : ststeps [] (StNext CpGreeting)
| sss_step : forall l st e st', ststeps l st -> ststep st e st' -> ststeps (l ++ [e]) st'.
End Std.
Arguments StNext {K} p.
Arguments StRead {K} p.
Arguments StGive {K} p b.
Arguments StWrite {K} p b.
Arguments StIn {K} o k.
Arguments StEnd {K} h.
