(** Vocabulary for statements about server logs. Nothing here mentions the state of the
    server, only API calls and their results. *)
From Coq Require Import List NArith Bool PeanoNat.
From Verif Require Import Base Types Codec Handle ServerSend Server SpecFraming SpecClient.
Import ListNotations.

(** All bytes given to [enqueue_input]. *)
Fixpoint sinputs (l : list slog) : bytes :=
  match l with
  | [] => []
  | SlInput x :: l' => x ++ sinputs l'
  | _ :: l' => sinputs l'
  end.

(** Frames taken from the input, with the verdict on them. *)
Fixpoint staken (l : list slog) : list (bytes * sverdict) :=
  match l with
  | [] => []
  | SlRx (SrxMsg raw v) :: l' => (raw, v) :: staken l'
  | _ :: l' => staken l'
  end.

Definition staken_bytes (l : list slog) : bytes := concat (map fst (staken l)).

(** Input that belongs to no frame taken so far. *)
Definition sunread (l : list slog) : bytes := skipn (length (staken_bytes l)) (sinputs l).

(** Results of [next]. *)
Fixpoint sresults (l : list slog) : list s_ires :=
  match l with
  | [] => []
  | SlNext r :: l' => r :: sresults l'
  | _ :: l' => sresults l'
  end.

Fixpoint sevents (l : list slog) : list sevent :=
  match l with
  | [] => []
  | SlNext (IEvent e) :: l' => e :: sevents l'
  | _ :: l' => sevents l'
  end.

(** The byte strings that [next] asked to write. *)
Fixpoint souts (l : list slog) : list bytes :=
  match l with
  | [] => []
  | SlNext (IOutput b) :: l' => b :: souts l'
  | _ :: l' => souts l'
  end.

Definition soutputs (l : list slog) : bytes := concat (souts l).

(** ** What is expected next, and the literals of the command being received *)

Definition smode_step (m : expected) (e : slog) : expected :=
  match e with
  | SlNext (IEvent (SeCommandAuthenticateReceived _)) => ExAuthenticateData
  | SlNext (IEvent (SeIdleCommandReceived _)) => ExIdleAccept
  | SlNext (IEvent SeIdleDoneReceived) => ExCommand
  | SlAuthFinish _ (inl _) => ExCommand
  | SlIdleAccept _ (inl _) => ExIdleDone
  | SlIdleReject _ (inl _) => ExCommand
  | _ => m
  end.
Definition smode (l : list slog) : expected := fold_left smode_step l ExCommand.

Definition slits_step (ls : list cmd_lit) (e : slog) : list cmd_lit :=
  match e with
  | SlRx (SrxLit i) => ls ++ [i]
  | SlRx (SrxMsg _ _) => []
  | _ => ls
  end.
(** Literals accepted since the last frame was taken. *)
Definition slits (l : list slog) : list cmd_lit := fold_left slits_step l [].

Definition expected_eqb (a b : expected) : bool :=
  match a, b with
  | ExCommand, ExCommand | ExAuthenticateData, ExAuthenticateData
  | ExIdleAccept, ExIdleAccept | ExIdleDone, ExIdleDone => true
  | _, _ => false
  end.

(** Result of a call with argument [q] that is possible only if [ok]: a handle, or the
    argument. *)
Definition call_result {A} (ok : bool) (q : A) (r : handle + A) : Prop :=
  match r with
  | inl _ => ok = true
  | inr q' => ok = false /\ q' = q
  end.

(** Input arrives in chunks of at most [k] bytes, each only after [next] has asked for it
    (while not waiting for the decision about IDLE). *)
Definition fed_on_demand (k : nat) (l : list slog) : Prop :=
  forall l1 x l2, l = l1 ++ SlInput x :: l2 ->
  length x <= k /\
  exists l0 lm, l1 = l0 ++ SlNext INeedMore :: lm /\ sinputs lm = [] /\ smode l0 <> ExIdleAccept.

(** ** What has to be sent *)

Definition accept_response (o : soptions) (i : cmd_lit) : response :=
  RCcr (CcrBasic None (so_accept_text o)).
Definition reject_response (o : soptions) (i : cmd_lit) : response :=
  RStatus (StTagged (cl_tag i) (StatusBody SkBad None (so_reject_text o))).

Definition when_sync (i : cmd_lit) (m : smsg) : list smsg :=
  match cl_mode i with LSync => [m] | LNonSync => [] end.

Definition scheduled_by (o : soptions) (e : slog) : list smsg :=
  match e with
  | SlEnqueue r h => [SmResponse (Some h) r]
  | SlAuthContinue q (inl h) => [SmResponse (Some h) (RCcr q)]
  | SlAuthFinish t (inl h) => [SmResponse (Some h) (RStatus t)]
  | SlIdleAccept q (inl h) => [SmResponse (Some h) (RCcr q)]
  | SlIdleReject t (inl h) => [SmResponse (Some h) (RStatus t)]
  | SlRx (SrxLit i) => when_sync i (SmResponse None (accept_response o i))
  | SlRx (SrxMsg _ (SvLiteralTooLong i)) =>
      when_sync i (SmResponse None (reject_response o i))
  | _ => []
  end.

(** The bytes of a message. *)
Definition wire (K : Codecs) (m : smsg) : bytes :=
  match m with
  | SmGreeting g => frags_bytes (enc_greeting K g)
  | SmResponse _ r => frags_bytes (enc_response K r)
  end.

(** Greeting, responses of the application, and internal responses ([None] instead of a
    handle), in the order in which they were enqueued. *)
Definition scheduled (o : soptions) (gr : greeting) (l : list slog) : list smsg :=
  SmGreeting gr :: flat_map (scheduled_by o) l.

(** The event that reports a message as sent, if any. *)
Definition sent_event (m : smsg) : option sevent :=
  match m with
  | SmGreeting g => Some (SeGreetingSent g)
  | SmResponse (Some h) r => Some (SeResponseSent h r)
  | SmResponse None _ => None
  end.

Definition is_sent_event (e : sevent) : bool :=
  match e with SeGreetingSent _ | SeResponseSent _ _ => true | _ => false end.

Definition opt_list {A} (x : option A) : list A := match x with Some y => [y] | None => [] end.

(** The events that report the given messages as sent. *)
Definition sent_events (ms : list smsg) : list sevent :=
  flat_map (fun m => opt_list (sent_event m)) ms.

(** What a result of [next] reports as sent. *)
Definition sent_of (r : s_ires) : option sevent :=
  match r with IEvent e => if is_sent_event e then Some e else None | _ => None end.

(** Messages that were not output yet. *)
Definition unsent (o : soptions) (gr : greeting) (l : list slog) : list smsg :=
  skipn (length (souts l)) (scheduled o gr l).

(** No internal response is waiting. *)
Definition no_internal (o : soptions) (gr : greeting) (l : list slog) : Prop :=
  forall m, In m (unsent o gr l) -> sent_event m <> None.

(** ** Frames *)

(** Line ends of the last line of a frame. *)
Definition sline_end_ok (o : soptions) (raw : bytes) (v : sverdict) : Prop :=
  match v with
  | SvBareLf => so_crlf_relaxed o = false /\
      exists q x, raw = q ++ x /\ is_line x /\ ~ ends_crlf x
  | SvTooLong => True
  | _ => so_crlf_relaxed o = false -> ends_crlf raw
  end.

(** Literals up to the size limit are accepted. *)
Definition cmd_accept (o : soptions) (i : cmd_lit) : option N :=
  if N.ltb (so_max_literal_size o) (cl_length i) then None else Some (cl_length i).

Definition command_event (c : command) : sevent :=
  match cbody c with
  | BAuthenticate mech ir =>
      SeCommandAuthenticateReceived (CommandAuthenticate (ctag c) mech ir)
  | BIdle => SeIdleCommandReceived (ctag c)
  | BOther _ => SeCommandReceived c
  end.

(** What [next] returns for a frame. *)
Definition sresult (raw : bytes) (v : sverdict) : s_ires :=
  match v with
  | SvCommand c => IEvent (command_event c)
  | SvAuthData d => IEvent (SeAuthenticateDataReceived d)
  | SvIdleDone => IEvent SeIdleDoneReceived
  | SvLiteralTooLong _ => IError (SerrLiteralTooLong raw)
  | SvMalformed => IError (SerrMalformedMessage raw)
  | SvBareLf => IError (SerrExpectedCrlfGotLf raw)
  | SvTooLong => IError (SerrCommandTooLong raw)
  end.

(** Results of [next] that report something received. *)
Definition is_report (r : s_ires) : bool :=
  match r with
  | IEvent e => negb (is_sent_event e)
  | IError _ => true
  | _ => false
  end.

Section Frames.
  Variable K : Codecs.
  Variable o : soptions.

  Definition command_frame := framed (dec_command K) (so_crlf_relaxed o) (cmd_accept o).
  Definition authdata_frame := framed (dec_authdata K) (so_crlf_relaxed o) accept_none.
  Definition idledone_frame := framed (dec_idledone K) (so_crlf_relaxed o) accept_none.

  (** [b] starts with a complete message of the expected kind. *)
  Definition smessage (m : expected) (b : bytes) : Prop :=
    match m with
    | ExCommand => has_message (dec_command K) (so_crlf_relaxed o) (cmd_accept o) b
    | ExAuthenticateData => has_message (dec_authdata K) (so_crlf_relaxed o) accept_none b
    | ExIdleAccept => False
    | ExIdleDone => has_message (dec_idledone K) (so_crlf_relaxed o) accept_none b
    end.

  (** The frame [raw] with literals [ls], when [m] was expected, has verdict [v]. *)
  Definition sframe (m : expected) (raw : bytes) (ls : list cmd_lit) (v : sverdict) : Prop :=
    match m with
    | ExCommand =>
        match v with
        | SvCommand c => command_frame raw ls (OMsg c)
        | SvLiteralTooLong i => command_frame raw ls (ORejected i)
        | SvMalformed => command_frame raw ls OMalformed
        | SvBareLf => command_frame raw ls OBareLf
        | _ => False
        end
    | ExAuthenticateData =>
        ls = [] /\
        match v with
        | SvAuthData d => authdata_frame raw [] (OMsg d)
        | SvMalformed => authdata_frame raw [] OMalformed
        | SvBareLf => authdata_frame raw [] OBareLf
        | _ => False
        end
    | ExIdleAccept => False
    | ExIdleDone =>
        ls = [] /\
        match v with
        | SvIdleDone => idledone_frame raw [] (OMsg tt)
        | SvMalformed => idledone_frame raw [] OMalformed
        | SvBareLf => idledone_frame raw [] OBareLf
        | _ => False
        end
    end.

  (** The same with the size limit. *)
  Definition sframe_limited (m : expected) (raw : bytes) (ls : list cmd_lit) (v : sverdict)
    : Prop :=
    match v with
    | SvTooLong =>
        m <> ExIdleAccept /\
        N.of_nat (length raw) = so_max_command_size o /\ ~ smessage m raw
    | _ => sframe m raw ls v /\ (N.of_nat (length raw) <= so_max_command_size o)%N
    end.

  (** The line [raw] is malformed, or ends wrongly, when [m] is expected. *)
  Definition sbad (m : expected) (raw : bytes) : Prop :=
    exists v, (v = SvMalformed \/ v = SvBareLf) /\ sframe_limited m raw [] v.

  (** Contract of the decoders: a decoded message is the whole frame. *)
  Definition sno_trailing : Prop :=
    (forall raw ls m, ~ command_frame raw ls (OTrailing m)) /\
    (forall raw ls m, ~ authdata_frame raw ls (OTrailing m)) /\
    (forall raw ls m, ~ idledone_frame raw ls (OTrailing m)).
End Frames.

(** The run [ops] from a new server does not panic, ends in [s] and has log [l]. *)
Definition sran (K : Codecs) (g : hgen) (o : soptions) (gr : greeting) (ops : list sop)
    (s : server) (l : list slog) : Prop :=
  server_run K (server_new g o gr) ops = (Some s, l).
