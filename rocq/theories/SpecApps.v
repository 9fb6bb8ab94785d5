(** Vocabulary for statements about the example programs, over what they see: the calls that
    they make, with their results, and the events and errors that they are told. *)
From Coq Require Import List NArith Bool PeanoNat.
From Coq Require String.
Import (notations) String.
From Verif Require Import Base Types Codec Handle ClientSend Client ServerSend Server
  SpecClient SpecServer SpecSystem Stream StreamMachine SpecStream SpecNet Apps.
Import ListNotations.
Open Scope list_scope.

(** What the programs send. *)
Definition login_command (login : bytes) : command := Command (lit "A1") (BOther login).
Definition login_mechanism (t : tag) : command := Command t (BAuthenticate AMLogin None).
Definition name_and_password : list auth_data := [ADContinue (lit "alice"); ADContinue (lit "password")].
Definition a1_idle : command := Command (lit "A1") BIdle.

(** The calls. *)
Definition c_call (e : clog) : bool := match e with ClNext _ => false | _ => true end.
Definition c_calls (A : list clog) : list clog := filter c_call A.
Definition s_call (e : slog) : bool := match e with SlNext _ => false | _ => true end.
Definition s_calls (A : list slog) : list slog := filter s_call A.

(** The program waits for [next] (or a line). *)
Definition waits {M} {P : program M} (st : pstate P) : Prop := exists p, st = PAt p.

(** The first call is to enqueue [cmd], at once when the greeting is received; [h] is its
    handle, and [A2] what follows. *)
Definition begins (cmd : command) (h : handle) (A2 A : list clog) : Prop :=
  exists A1 x, A = A1 ++ ClNext (IEvent (CeGreetingReceived x)) :: ClEnqueue cmd h :: A2 /\
    c_calls A1 = [] /\ ~ greeted A1.

(** Number of requests for authentication data. *)
Definition asks (A : list clog) : nat :=
  length (filter (fun e => match e with CeAuthenticateContinuationRequestReceived _ _ => true | _ => false end)
    (events A)).

(** The first [n] of: the given data, then always cancel. *)
Definition answers (ds : list auth_data) (n : nat) : list auth_data :=
  firstn n (ds ++ repeat ADCancel n).

(** A status with tag [t] that is reported as such, and not as the end of an exchange. *)
Definition status_with (t : tag) (e : clog) : Prop :=
  exists b, e = ClNext (IEvent (CeStatusReceived (StTagged t b))).

(** Commands reported by a server, except AUTHENTICATE and IDLE. *)
Fixpoint s_commands (A : list slog) : list command :=
  match A with
  | [] => []
  | SlNext (IEvent (SeCommandReceived c)) :: A' => c :: s_commands A'
  | _ :: A' => s_commands A'
  end.
Fixpoint s_enqueued (A : list slog) : list (handle * response) :=
  match A with
  | [] => []
  | SlEnqueue r h :: A' => (h, r) :: s_enqueued A'
  | _ :: A' => s_enqueued A'
  end.

(** Events that ask for an answer of examples/server_authenticate.rs, and what answers them. *)
Definition asks_answer (e : sevent) : bool :=
  match e with
  | SeCommandReceived _ | SeCommandAuthenticateReceived _ | SeAuthenticateDataReceived _ => true
  | _ => false
  end.
Definition answers_event (e : sevent) (c : slog) : Prop :=
  match e, c with
  | SeCommandReceived cmd, SlEnqueue (RStatus (StTagged t b)) _ => t = ctag cmd /\ sb_kind b = SkNo
  | SeCommandAuthenticateReceived ca, SlAuthContinue _ (inl _) => True
  | SeCommandAuthenticateReceived ca, SlAuthFinish (StTagged t b) (inl _) =>
      t = ca_tag ca /\ sb_kind b = SkOk
  | SeAuthenticateDataReceived _, SlAuthContinue _ (inl _) => True
  | SeAuthenticateDataReceived _, SlAuthFinish (StTagged _ b) (inl _) => sb_kind b = SkOk
  | _, _ => False
  end.

(** Nothing is reported that the client sent. *)
Definition deaf (A : list slog) : Prop :=
  forall r, In (SlNext r) A -> is_report r = false.

(** examples/client_idle.rs: IDLE is over with [e]; before, at most [set_idle_done] is called;
    afterwards ([A3]) nothing. *)
Definition idle_over (h : handle) (e : cevent) : Prop :=
  e = CeIdleDoneSent h \/ exists s, e = CeIdleRejected h s /\ tagged_status (lit "A1") s.
Definition only_done (A : list clog) : Prop := forall e, In e (c_calls A) -> exists r, e = ClSetDone r.
Definition idled (h : handle) (e : cevent) (A3 A : list clog) : Prop :=
  exists A2, begins a1_idle h (A2 ++ ClNext (IEvent e) :: A3) A /\ only_done A2 /\
    idle_over h e /\ terminals A2 = [] /\ c_calls A3 = [].

(** Handles of the responses reported as sent. *)
Fixpoint s_sent (A : list slog) : list (handle * response) :=
  match A with
  | [] => []
  | SlNext (IEvent (SeResponseSent h r)) :: A' => (h, r) :: s_sent A'
  | _ :: A' => s_sent A'
  end.

(** Events that report a command. *)
Definition is_command (e : sevent) : bool :=
  match e with
  | SeCommandReceived _ | SeCommandAuthenticateReceived _ | SeIdleCommandReceived _ => true
  | _ => false
  end.
Definition no_command (A : list slog) : Prop :=
  forall e, In (SlNext (IEvent e)) A -> is_command e = false.

(** After IDLE nothing of the client is reported; after AUTHENTICATE no command. *)
Definition stalls_on_idle (A : list slog) : Prop :=
  forall A1 t A2, A = A1 ++ SlNext (IEvent (SeIdleCommandReceived t)) :: A2 -> deaf A2.
Definition stalls_on_authenticate (A : list slog) : Prop :=
  forall A1 ca A2, A = A1 ++ SlNext (IEvent (SeCommandAuthenticateReceived ca)) :: A2 -> no_command A2.

(** Tags of the IDLE commands that were ended by DONE; [t]: tag of the last IDLE command. *)
Fixpoint dones (t : option tag) (A : list slog) : list tag :=
  match A with
  | [] => []
  | SlNext (IEvent (SeIdleCommandReceived t')) :: A' => dones (Some t') A'
  | SlNext (IEvent SeIdleDoneReceived) :: A' => opt_list t ++ dones t A'
  | _ :: A' => dones t A'
  end.

(** Enqueued statuses. *)
Fixpoint s_statuses (A : list slog) : list status :=
  match A with
  | [] => []
  | SlEnqueue (RStatus t) _ :: A' => t :: s_statuses A'
  | _ :: A' => s_statuses A'
  end.

(** The first event is that the greeting was sent. *)
Definition greets (gr : greeting) (A : list slog) : Prop :=
  exists A2, A = SlNext (IEvent (SeGreetingSent gr)) :: A2.

(** What examples/server.rs answers, and examples/server_idle.rs at the end of IDLE. *)
Definition no_to (c : command) : response := RStatus (StTagged (ctag c) (StatusBody SkNo None (lit "..."))).
Definition idle_ok (t : tag) : status := StTagged t (StatusBody SkOk None (lit "...")).

(** ** examples/client_std.rs *)
Section StdWords.
Context (K : Codecs).
Notation CM := (client_machine K).

(** The calls in [l] have the results that a new client gives, which ends in [c]. *)
Definition alone (relaxed : bool) (g : hgen) (l : list (xlog CM)) (c : client) : Prop :=
  call_run CM (client_new g relaxed) (calls l) = Some (c, call_entries l).

(** [n] turns of the loop in which nothing is read. *)
Definition eof_turn : list (xlog CM) := [XRead []; XGive []; @XNext CM MNeedMore].
Fixpoint eof_turns (n : nat) : list (xlog CM) :=
  match n with 0 => [] | S n => eof_turns n ++ eof_turn end.

(** If something is read, then nothing (the end of the input); reading and writing work. *)
Definition at_eof (e : xlog CM) : Prop :=
  match e with XRead b => b = [] | XRet RetIo => False | _ => True end.
End StdWords.

(** ** What the servers say *)

(** Each call is justified by what was seen and done before. *)
Definition justified (just : list slog -> slog -> Prop) (A : list slog) : Prop :=
  forall A1 e A2, A = A1 ++ e :: A2 -> s_call e = true -> just A1 e.

(** examples/server.rs answers the command that was just received. *)
Definition server_says (A1 : list slog) (e : slog) : Prop :=
  exists A0 c h, A1 = A0 ++ [SlNext (IEvent (SeCommandReceived c))] /\ e = SlEnqueue (no_to c) h.

(** examples/server_authenticate.rs answers what was just received. *)
Definition server_authenticate_says (A1 : list slog) (e : slog) : Prop :=
  exists A0 v, A1 = A0 ++ [SlNext (IEvent v)] /\
  match v, e with
  | SeCommandReceived c, SlEnqueue r _ =>
      r = RStatus (StTagged (ctag c) (StatusBody SkNo None (lit "Please use AUTHENTICATE")))
  | SeCommandAuthenticateReceived ca, SlAuthContinue q _ => q = CcrBasic None (lit "I need more data...")
  | SeCommandAuthenticateReceived ca, SlAuthFinish t _ =>
      t = StTagged (ca_tag ca) (StatusBody SkOk None (lit "Thanks, that's already enough!"))
  | SeAuthenticateDataReceived _, SlAuthContinue q _ => q = CcrBasic None (lit "...more...")
  | SeAuthenticateDataReceived _, SlAuthFinish t _ =>
      exists ca, In (SeCommandAuthenticateReceived ca) (sevents A1) /\
        t = StTagged (ca_tag ca) (StatusBody SkOk None (lit "Thanks!"))
  | _, _ => False
  end.

(** examples/server_idle.rs answers DONE; the rest is up to the user. *)
Definition server_idle_says (expunge : bytes) (A1 : list slog) (e : slog) : Prop :=
  match e with
  | SlEnqueue (RStatus s) _ =>
      exists A0 t, A1 = A0 ++ [SlNext (IEvent SeIdleDoneReceived)] /\ s = idle_ok t /\
        In (SeIdleCommandReceived t) (sevents A1)
  | SlEnqueue (RData d) _ => d = DOther expunge
  | SlIdleAccept q _ => q = CcrBasic None (lit "...")
  | SlIdleReject s _ =>
      exists t, s = StTagged t (StatusBody SkNo None (lit "...")) /\
        In (SeIdleCommandReceived t) (sevents A1)
  | _ => False
  end.

(** ** Connected programs *)

(** Encoders and decoders agree about the messages that occur between a client program that
    sends [cmd], [data] and DONE, and a server program that sends [texts]; and they fit the
    limits of the server. *)
Record agreed (K : Codecs) (relaxed : bool) (o : soptions) (gr : greeting) (cmd : command)
    (texts : list response) (data : list auth_data) : Prop := {
  ag_greeting : msg_roundtrips K relaxed (SmGreeting gr);
  ag_texts : forall r, In r texts -> msg_roundtrips K relaxed (SmResponse None r);
  ag_cmd : cmd_roundtrips K cmd /\ cmd_fits K o cmd;
  ag_data : forall d, In d data ->
    line_roundtrips (dec_authdata K) (enc_authdata K d) d /\ line_fits o (enc_authdata K d);
  ag_done : cbody cmd = BIdle ->
    line_roundtrips (dec_idledone K) (enc_idledone K) tt /\ line_fits o (enc_idledone K);
  ag_size : (0 < so_max_command_size o)%N;
  ag_accept : msg_roundtrips K relaxed (SmResponse None (RCcr (CcrBasic None (so_accept_text o))));
  ag_reject : msg_roundtrips K relaxed
    (SmResponse None (RStatus (StTagged (ctag cmd) (StatusBody SkBad None (so_reject_text o)))))
}.

(** The programs [PC] and [PS] run on connected streams, and are in [stc] and [sts]. *)
Definition runs {K : Codecs} (PC : program (client_machine K)) (PS : program (server_machine K))
    relaxed o gc gs gr T1 T2 z L stc sts : Prop :=
  talk relaxed o gc gs gr T1 T2 z L /\ psteps PC (Net.lefts L) stc /\ psteps PS (Net.rights L) sts.

(** What examples/server_authenticate.rs may say to examples/client_authenticate.rs, and what
    the client may answer. *)
Definition authenticate_texts (t : tag) : list response := [
  RCcr (CcrBasic None (lit "I need more data...")); RCcr (CcrBasic None (lit "...more..."));
  RStatus (StTagged t (StatusBody SkOk None (lit "Thanks, that's already enough!")));
  RStatus (StTagged t (StatusBody SkOk None (lit "Thanks!")))].
Definition authenticate_answers : list auth_data :=
  [ADContinue (lit "alice"); ADContinue (lit "password"); ADCancel].

(** What examples/server_idle.rs may say to examples/client_idle.rs. *)
Definition idle_texts (expunge : bytes) : list response := [
  RCcr (CcrBasic None (lit "...")); RData (DOther expunge); RStatus (idle_ok (lit "A1"));
  RStatus (StTagged (lit "A1") (StatusBody SkNo None (lit "...")))].

(** No IDLE was accepted or rejected. *)
Definition unanswered (A : list slog) : Prop :=
  forall e, In e A ->
    match e with SlIdleAccept _ (inl _) | SlIdleReject _ (inl _) => False | _ => True end.

(** ** Programs on working sockets *)
Section Working.
Context {K : Codecs}.
Notation CM := (client_machine K).
Notation SM := (server_machine K).

(** Nothing fails: [next] is polled, the socket takes and delivers bytes; futures are dropped,
    and there are calls. *)
Definition working {M} (a : act M) : Prop :=
  match a with ANext | AWrite (Some (S _)) | ACancel | ACall _ => True | _ => False end.
Definition net_working (a : Net.nact CM SM) : Prop :=
  match a with
  | Net.NLeft a => working a
  | Net.NRight a => working a
  | Net.NToRight _ | Net.NToLeft _ => True
  end.

Section Pair.
Context (PC : program CM) (PS : program SM) (relaxed : bool) (o : soptions) (gc gs : hgen) (gr : greeting)
  (T1 T2 : tls) (fuel : nat).

(** The programs run on plain streams and working sockets, and are in [stc] and [sts]. *)
Definition works (z : Net.net T1 T2 CM SM) (L : list (Net.nlog CM SM)) (stc : pstate PC) (sts : pstate PS) : Prop :=
  exists acts, Forall net_working acts /\
    Net.net_run T1 T2 CM SM fuel
      (Net.net_new T1 T2 CM SM (stream_insecure T1) (client_new gc relaxed)
         (stream_insecure T2) (server_new gs o gr)) acts = (z, L) /\
    psteps PC (Net.lefts L) stc /\ psteps PS (Net.rights L) sts.

(** From [st], with the log [l], to [st']. *)
Inductive follows {M} (P : program M) : pstate P -> list (xlog M) -> pstate P -> Prop :=
| fo_nil : forall st, follows P st [] st
| fo_cons : forall st e st1 l st2, pstep P st e st1 -> follows P st1 l st2 -> follows P st (e :: l) st2.

(** What a program does by itself, without its user. *)
Definition by_itself {M} {P : program M} (st : pstate P) (a : act M) : Prop :=
  match a with
  | ANext | AWrite (Some (S _)) => True
  | ACall p => exists k, st = PIn p k
  | _ => False
  end.

(** One thing that happens without the users. *)
Definition program_moves
    (w' w : Net.net T1 T2 CM SM * list (Net.nlog CM SM) * pstate PC * pstate PS) : Prop :=
  let '(z, L, stc, sts) := w in
  let '(z', L', stc', sts') := w' in
  exists a l,
    match a with Net.NLeft a => by_itself stc a | Net.NRight a => by_itself sts a | _ => True end /\
    Net.net_step T1 T2 CM SM fuel z a = (z', l) /\ l <> [] /\ L' = L ++ l /\
    follows PC stc (Net.lefts l) stc' /\ follows PS sts (Net.rights l) sts'.
End Pair.
End Working.
