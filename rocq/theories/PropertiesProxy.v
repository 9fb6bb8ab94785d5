(** Properties of the proxy (C36-C39, C45, C46, C48). Vocabulary: SpecProxy.v.

    [prun K Tc Ts fuel gs p acts = (p', l)]: the sockets of the client and the server behave
    as [acts] says; [l] is the log of what happened at the two streams. *)
From Coq Require Import List NArith Bool PeanoNat.
From Coq Require String.
Import (notations) String.
From Verif Require Import Base Types Codec Handle Receive ClientSend Client ServerSend Server
  SpecClient SpecServer Stream StreamMachine SpecStream StreamProofs ProxyUtil Proxy SpecProxy
  ProxyFilter ProxyEffect ProxyProofs ProxyInv ProxyRuns ProxyWire ToyCodec ToyLaws ToyTls ClientExamples.
Import ListNotations.
Open Scope list_scope.
Open Scope nat_scope.

(** A proxy with the toy codec, between two streams without TLS. *)
Definition TP : tls := toy_tls 8 true.
Definition p_run (acts : list (bool * io)) : pstate toy TP TP * list (plog toy) :=
  prun toy TP TP 100 (HGen 7 0)
    (proxy_start toy TP TP (stream_insecure TP) (stream_insecure TP) ex_gen) acts.
Definition p_log (acts : list (bool * io)) : list (plog toy) := snd (p_run acts).
Definition p_end (acts : list (bool * io)) : option pend :=
  match fst (p_run acts) with PsEnd why => Some why | _ => None end.
Lemma p_run_log : forall acts, prun toy TP TP 100 (HGen 7 0)
  (proxy_start toy TP TP (stream_insecure TP) (stream_insecure TP) ex_gen) acts
  = (fst (p_run acts), p_log acts).
Proof. intro acts. apply surjective_pairing. Qed.

(** The client sends a line; the server sends a line; the proxy writes to the client; to the
    server. *)
Definition cl (s : String.string) : list (bool * io) :=
  [(false, IoPoll); (false, IoRead (Some (ln s)))].
Definition sv (s : String.string) : list (bool * io) :=
  [(true, IoPoll); (true, IoRead (Some (ln s)))].
Definition cw : list (bool * io) :=
  (false, IoPoll) :: repeat (false, IoWrite (Some 1)) 60 ++ [(false, IoPoll)].
Definition sw : list (bool * io) :=
  (true, IoPoll) :: repeat (true, IoWrite (Some 1)) 60 ++ [(true, IoPoll)].
Definition hello : list (bool * io) :=
  sv "* OK [CAPABILITY IMAP4REV1 X-FOO AUTH=PLAIN] hi" ++ cw.

(** A command with two responses, and then a command that the server rejects. *)
Definition ex_session : list (bool * io) :=
  hello ++ cl "A1 NOOP" ++ sw ++ sv "* CAPABILITY X IDLE" ++ sv "A1 OK [CAPABILITY X] done" ++ cw ++ cw ++
  cl "A2 X {3}" ++ cw ++ cl "abc" ++ sw ++ sv "A2 BAD [ALERT] never" ++ cw.

(** ** C36 *)

(** Capability lists are reduced to their supported members, in order, or replaced by
    IMAP4rev1; everything else is unchanged. *)
Theorem C36_reduced :
  (forall v, reduced v (filter_capabilities v)) /\
  (forall g, greeting_reduced g (filter_greeting g)) /\
  (forall d, response_reduced (RData d) (RData (filter_data d))) /\
  (forall s, response_reduced (RStatus s) (RStatus (filter_status s))) /\
  (forall q, response_reduced (RCcr q) (RCcr (filter_continuation q))).
Proof.
  repeat split; intros.
  - apply caps_reduced.
  - apply filter_greeting_reduced.
  - apply filter_data_reduced.
  - apply filter_status_reduced.
  - apply filter_continuation_reduced.
Qed.
Print Assumptions C36_reduced.

(** This determines the result, and the result contains only supported capabilities and at
    least one. *)
Theorem C36_supported : forall v v', reduced v v' -> Forall supported (v1_list v') /\ v1_list v' <> [].
Proof. intros v v' H. split; [eapply reduced_supported; exact H|discriminate]. Qed.
Print Assumptions C36_supported.

Theorem C36_determined : forall v v1 v2, reduced v v1 -> reduced v v2 -> v1 = v2.
Proof. exact reduced_fun. Qed.
Print Assumptions C36_determined.

Theorem C36_idempotent :
  (forall v, filter_capabilities (filter_capabilities v) = filter_capabilities v) /\
  (forall v, Forall supported (v1_list v) -> filter_capabilities v = v).
Proof.
  split; [exact filter_capabilities_idem|]. intros v H.
  apply (reduced_fun v); [apply caps_reduced|]. left. now apply keeps_id.
Qed.
Print Assumptions C36_idempotent.

Example C36_example :
  filter_capabilities (Vec1 (CapOther (B "X")) [CapIdle; CapAuth AMScramSha256Plus; CapAuth AMPlain; CapImap4Rev1])
    = Vec1 CapIdle [CapAuth AMPlain; CapImap4Rev1] /\
  filter_capabilities (Vec1 (CapOther (B "X")) []) = Vec1 CapImap4Rev1 [] /\
  filter_greeting (Greeting GkOk (Some (CodeCapability (Vec1 (CapOther (B "X")) [CapIdle]))) (B "hi"))
    = Greeting GkOk (Some (CodeCapability (Vec1 CapIdle []))) (B "hi") /\
  ~ supported (CapOther (B "X")) /\ ~ supported (CapAuth AMScramSha256Plus).
Proof.
  split; [reflexivity|]. split; [reflexivity|]. split; [reflexivity|].
  split; rewrite <- keep_supported; discriminate.
Qed.

(** ** C37 *)

(** True for the greeting and for responses that are enqueued: their capabilities are
    supported. *)
Theorem C37_enqueued : forall K Tc Ts fuel gs c s gc acts p l,
  prun K Tc Ts fuel gs (proxy_start K Tc Ts c s gc) acts = (p, l) ->
  forall r x, In (SaEnqueue r, x) (calls_to_client l) -> Forall supported (response_caps r).
Proof. exact enqueued_supported. Qed.
Print Assumptions C37_enqueued.

Theorem C37_greeting : forall K Tc Ts fuel gs c s gc acts p l,
  prun K Tc Ts fuel gs (proxy_start K Tc Ts c s gc) acts = (p, l) ->
  forall g, In (SeGreetingSent g) (client_events l) -> Forall supported (code_caps (g_code g)).
Proof. exact greeting_sent_supported. Qed.
Print Assumptions C37_greeting.

Example C37_example :
  map fst (calls_to_client (p_log ex_session)) =
    [SaEnqueue (RData (DCapability (Vec1 CapIdle [])));
     SaEnqueue (RStatus (StTagged (B "A1")
       (StatusBody SkOk (Some (CodeCapability (Vec1 CapImap4Rev1 []))) (B "done"))));
     SaEnqueue (RStatus (StTagged (B "A2") (StatusBody SkBad (Some CodeAlert) (B "never"))))] /\
  In (SeGreetingSent (Greeting GkOk (Some (CodeCapability (Vec1 CapImap4Rev1 [CapAuth AMPlain]))) (B "hi")))
    (client_events (p_log ex_session)).
Proof. split; [vm_compute; reflexivity|vm_compute; left; reflexivity]. Qed.

(** False for the other four calls: they give the response of the server to the client as it
    is. *)
Definition unsupported_call (o : sapp) (l : list (plog toy)) : Prop :=
  In o (map fst (calls_to_client l)) /\ ~ Forall supported (response_caps (responding o)).
Lemma not_supported : forall l c, In c l -> keep_capability c = false -> ~ Forall supported l.
Proof.
  intros l c H1 H2 H. rewrite Forall_forall in H. apply H, keep_supported in H1. congruence.
Qed.

Definition leak_auth : list (bool * io) :=
  hello ++ cl "A1 AUTHENTICATE PLAIN" ++ sw ++ sv "+ [CAPABILITY X] go" ++ cw ++ cl "abc" ++ sw ++
  sv "A1 OK [CAPABILITY X] done" ++ cw.
Definition leak_idle : list (bool * io) := hello ++ cl "A1 IDLE" ++ sw ++ sv "+ [CAPABILITY X] go" ++ cw.
Definition leak_reject : list (bool * io) :=
  hello ++ cl "A1 IDLE" ++ sw ++ sv "A1 NO [CAPABILITY X] no" ++ cw.
Definition caps_x : option code := Some (CodeCapability (Vec1 (CapOther (B "X")) [])).
Theorem C37_refuted :
  unsupported_call (SaAuthenticateContinue (CcrBasic caps_x (B "go"))) (p_log leak_auth) /\
  unsupported_call (SaAuthenticateFinish (StTagged (B "A1") (StatusBody SkOk caps_x (B "done"))))
    (p_log leak_auth) /\
  unsupported_call (SaIdleAccept (CcrBasic caps_x (B "go"))) (p_log leak_idle) /\
  unsupported_call (SaIdleReject (StTagged (B "A1") (StatusBody SkNo caps_x (B "no")))) (p_log leak_reject).
Proof.
  assert (N : forall r, response_caps r = [CapOther (B "X")] -> ~ Forall supported (response_caps r)).
  { intros r E. rewrite E. now apply (not_supported _ (CapOther (B "X"))); [left|]. }
  split; [split; [vm_compute; left; reflexivity|apply N; reflexivity]|].
  split; [split; [vm_compute; right; left; reflexivity|apply N; reflexivity]|].
  split; (split; [vm_compute; left; reflexivity|apply N; reflexivity]).
Qed.
Print Assumptions C37_refuted.

(** The bytes sent to the client. *)
Example C37_refuted_wire :
  xwritten (at_client (p_log leak_auth)) =
    ln "* OK [CAPABILITY IMAP4REV1 AUTH=PLAIN] hi" ++ ln "+ [CAPABILITY X] go" ++
    ln "A1 OK [CAPABILITY X] done".
Proof. vm_compute. reflexivity. Qed.

(** ** C38 *)

(** Every request of the client is given to the server, unchanged and in order; every
    response of the server is given to the client, in order, reduced if it is enqueued; a
    rejected command is answered by BAD with its tag. Nothing else is given to either. *)
Theorem C38_forwards : forall K Tc Ts fuel gs c s gc acts p l,
  no_trailing K false -> single_lines K -> sno_trailing K proxy_soptions ->
  prun K Tc Ts fuel gs (proxy_start K Tc Ts c s gc) acts = (p, l) ->
  flat_map requested (client_events l) = map requesting (map fst (calls_to_server l)) /\
  Forall2 relayed (filter is_report (server_events l)) (map fst (calls_to_client l)).
Proof. exact proxy_forwards. Qed.
Print Assumptions C38_forwards.

(** Without assumptions on the codec: as long as the proxy runs. *)
Theorem C38_forwards_running : forall K Tc Ts fuel gs c s gc acts c' s' l,
  prun K Tc Ts fuel gs (proxy_start K Tc Ts c s gc) acts = (PsLoop c' s', l) ->
  flat_map requested (client_events l) = map requesting (map fst (calls_to_server l)) /\
  Forall2 relayed (filter is_report (server_events l)) (map fst (calls_to_client l)).
Proof. exact proxy_forwards_running. Qed.
Print Assumptions C38_forwards_running.

(** The calls that forward succeed, unless the proxy panics. *)
Theorem C38_succeeds : forall K Tc Ts fuel gs c s gc acts p l,
  prun K Tc Ts fuel gs (proxy_start K Tc Ts c s gc) acts = (p, l) -> ~ In PlPanic l ->
  Forall (fun x => c_refused (snd x) = false) (calls_to_server l) /\
  Forall (fun x => s_refused (snd x) = false) (calls_to_client l).
Proof. exact proxy_succeeds. Qed.
Print Assumptions C38_succeeds.

(** The stream to the server is a run of a client, and the stream to the client is a run of a
    server, which greets as the server did, with reduced capabilities. *)
Theorem C38_streams : forall K Tc Ts fuel gs c s gc acts p l,
  prun K Tc Ts fuel gs (proxy_start K Tc Ts c s gc) acts = (p, l) ->
  (exists acts' x, xrun Ts (client_machine K) fuel
     (@XState Ts (client_machine K) s (client_new gc false) FIdle) acts' = (x, at_server l)) /\
  (at_client l = [] \/
   exists g g' es acts' x, server_events l = CeGreetingReceived g :: es /\ greeting_reduced g g' /\
     xrun Tc (server_machine K) fuel
       (@XState Tc (server_machine K) c (server_new gs proxy_soptions g') FIdle) acts' = (x, at_client l)).
Proof. exact proxy_streams. Qed.
Print Assumptions C38_streams.

Example C38_example :
  flat_map requested (client_events (p_log ex_session)) =
    [RqCommand (cmd "A1" "NOOP"); RqCommand (Command (B "A2") (BOther (ln "X {3}" ++ B "abc")))] /\
  xwritten (at_server (p_log ex_session)) = ln "A1 NOOP" ++ ln "A2 X {3}" /\
  xwritten (at_client (p_log ex_session)) =
    ln "* OK [CAPABILITY IMAP4REV1 AUTH=PLAIN] hi" ++ ln "* CAPABILITY IDLE" ++
    ln "A1 OK [CAPABILITY IMAP4REV1] done" ++ ln "+ proxy: Literal accepted by proxy" ++ ln "A2 BAD [ALERT] never" /\
  p_end ex_session = None.
Proof. vm_compute. repeat split; reflexivity. Qed.

(** ** C39 *)

(** There are only two ways to panic: authentication data when the server did not ask for
    any, or a tagged status of the server after it accepted IDLE. *)
Theorem C39_panics : forall K Tc Ts fuel gs c s gc acts p l,
  prun K Tc Ts fuel gs (proxy_start K Tc Ts c s gc) acts = (p, l) -> In PlPanic l -> culprit l.
Proof. exact proxy_panics. Qed.
Print Assumptions C39_panics.

Theorem C39_panicked : forall K Tc Ts fuel gs c s gc acts l,
  no_trailing K false -> single_lines K -> sno_trailing K proxy_soptions ->
  prun K Tc Ts fuel gs (proxy_start K Tc Ts c s gc) acts = (PsEnd PePanicked, l) -> culprit l.
Proof. exact proxy_panicked. Qed.
Print Assumptions C39_panicked.

(** Both happen. *)
Definition panic_data : list (bool * io) := hello ++ cl "A1 AUTHENTICATE PLAIN" ++ cl "abc".
Definition panic_idle : list (bool * io) :=
  hello ++ cl "A1 IDLE" ++ sw ++ sv "+ idling" ++ cw ++ sv "A1 OK done".
Theorem C39_refuted :
  p_end panic_data = Some PePanicked /\ map snd (calls_to_server (p_log panic_data)) =
    [ClEnqueue (cmd "A1" "AUTHENTICATE PLAIN") (hd_ 0);
     ClSetAuth (ADContinue (B "abc")) (inr (ADContinue (B "abc")))] /\
  p_end panic_idle = Some PePanicked /\ map fst (calls_to_client (p_log panic_idle)) =
    [SaIdleAccept (CcrBasic None (B "idling"));
     SaIdleReject (StTagged (B "A1") (StatusBody SkOk None (B "done")))].
Proof. vm_compute. auto. Qed.
Print Assumptions C39_refuted.

Example C39_example : culprit (p_log panic_data) /\ culprit (p_log panic_idle).
Proof.
  split; eapply C39_panicked.
  1, 5: apply toy_no_trailing.
  1, 4: apply toy_single_lines.
  1, 3: apply toy_sno_trailing.
  - rewrite p_run_log. f_equal.
  - rewrite p_run_log. f_equal.
Qed.

(** ** C45 *)

(** False: the responses that the proxy received are not written before it closes the
    connection to its client. Here the server sends BYE and closes; nothing hinders the proxy
    from writing, but the loop ends. *)
Definition bye : list (bool * io) :=
  hello ++ sv "* BYE see you" ++ [(true, IoPoll); (true, IoRead (Some []))].
Theorem C45_refuted :
  p_end bye = Some PeAborted /\
  map fst (calls_to_client (p_log bye)) = [SaEnqueue (RStatus (StBye None (B "see you")))] /\
  xwritten (at_client (p_log bye)) = ln "* OK [CAPABILITY IMAP4REV1 AUTH=PLAIN] hi" /\
  forall acts, calls_to_client (p_log (bye ++ acts)) = calls_to_client (p_log bye) /\
    xwritten (at_client (p_log (bye ++ acts))) = xwritten (at_client (p_log bye)).
Proof.
  split; [vm_compute; reflexivity|]. split; [vm_compute; reflexivity|]. split; [vm_compute; reflexivity|].
  intro acts. unfold p_log, p_run. rewrite (prun_end _ _ _ _ _ _ bye acts); [auto|].
  assert (E : p_end bye = Some PeAborted) by (vm_compute; reflexivity).
  unfold p_end, p_run in E. destruct (fst _); [discriminate|discriminate|]. eauto.
Qed.
Print Assumptions C45_refuted.

(** ** C46 *)

(** The proxy ends only when a connection is lost (or the server sends no proper greeting),
    or by a panic or an infinite loop; while it runs, no connection is lost. In particular,
    malformed messages do not end it. *)
Theorem C46_ends : forall K Tc Ts fuel gs c s gc acts p l,
  prun K Tc Ts fuel gs (proxy_start K Tc Ts c s gc) acts = (p, l) ->
  match p with
  | PsGreeting _ _ | PsLoop _ _ => existsb loses l = false
  | PsEnd why => cause why l
  end.
Proof. exact proxy_ends'. Qed.
Print Assumptions C46_ends.

(** After the greeting, with well-behaved codecs and no infinite loop: it ends by a lost
    connection or one of the two panics. *)
Theorem C46_ends_after_greeting : forall K Tc Ts fuel gs c s gc acts why l,
  no_trailing K false -> single_lines K -> sno_trailing K proxy_soptions ->
  prun K Tc Ts fuel gs (proxy_start K Tc Ts c s gc) acts = (PsEnd why, l) ->
  server_events l <> [] -> ~ In (PlClient XHang) l -> ~ In (PlServer XHang) l ->
  existsb loses l = true \/ culprit l.
Proof. exact proxy_ends_lost. Qed.
Print Assumptions C46_ends_after_greeting.

(** A malformed line from the client and one from the server; end of file at the client. *)
Definition ex_ends : list (bool * io) :=
  hello ++ cl "A1" ++ sv "X" ++ sv "* 1 EXISTS" ++ cw ++ cl "A2 NOOP" ++ sw.
Example C46_example :
  p_end ex_ends = None /\ p_end (ex_ends ++ [(false, IoPoll); (false, IoRead (Some []))]) = Some PeAborted /\
  length (filter (fun e => match e with PlClient (XRet (RetState _)) | PlServer (XRet (RetState _)) => true
                           | _ => false end) (p_log ex_ends)) = 2 /\
  existsb loses (p_log ex_ends) = false /\
  existsb loses (p_log (ex_ends ++ [(false, IoPoll); (false, IoRead (Some []))])) = true /\
  p_end [(true, IoPoll); (true, IoRead (Some (ln "X")))] = Some PeAborted.
Proof. vm_compute. repeat split; reflexivity. Qed.

(** ** C48 *)

(** What the client of the proxy gets is a prefix of: the greeting of the server, reduced; and
    for each response of the server, in order, the one relayed for it (C38); with the
    responses of the proxy to literals in between. *)
Theorem C48_writes : forall K Tc Ts fuel gs gc s acts p l,
  prun K Tc Ts fuel gs (proxy_start K Tc Ts (stream_insecure Tc) s gc) acts = (p, l) -> ~ In PlPanic l ->
  at_client l = [] \/
  exists g g' es ys, server_events l = CeGreetingReceived g :: es /\ greeting_reduced g g' /\
    merged proxy_soptions (map responding (map fst (calls_to_client l))) ys /\
    exists rest, xwritten (at_client l) ++ rest = greeting_bytes K g' ++ responses_bytes K ys.
Proof. exact proxy_writes. Qed.
Print Assumptions C48_writes.

(** Responses of the proxy itself are these two, about literals. *)
Theorem C48_own : forall r, own_response proxy_soptions r <->
  r = RCcr (CcrBasic None (B "proxy: Literal accepted by proxy")) \/
  exists t, r = RStatus (StTagged t (StatusBody SkBad None (B "proxy: Literal rejected by proxy"))).
Proof. reflexivity. Qed.
Print Assumptions C48_own.

(** While the proxy waits for its client it has written all of this, or the last thing
    written is such a response of its own. *)
Theorem C48_waiting : forall K Tc Ts fuel gs gc s acts x y l,
  prun K Tc Ts fuel gs (proxy_start K Tc Ts (stream_insecure Tc) s gc) acts = (PsLoop x y, l) ->
  (forall g, greeting_bytes K g <> []) -> (forall r, frags_bytes (enc_response K r) <> []) ->
  x_f x = FRead ->
  exists g g' es ys, server_events l = CeGreetingReceived g :: es /\ greeting_reduced g g' /\
    merged proxy_soptions (map responding (map fst (calls_to_client l))) ys /\
    (xwritten (at_client l) = greeting_bytes K g' ++ responses_bytes K ys \/
     exists ys1 r ys2, ys = ys1 ++ r :: ys2 /\ own_response proxy_soptions r /\
       xwritten (at_client l) = greeting_bytes K g' ++ responses_bytes K (ys1 ++ [r])).
Proof. exact proxy_waiting. Qed.
Print Assumptions C48_waiting.

(** The exception is real: the client announces a literal that is too long, and the response
    of the server to a command before comes first. The proxy writes only its rejection, and
    then waits for its client and the server, although the response could be written. *)
Definition p_waits (acts : list (bool * io)) : option (fut * fut) :=
  match fst (p_run acts) with PsLoop x y => Some (x_f x, x_f y) | _ => None end.
Definition stall : list (bool * io) :=
  hello ++ cl "A1 NOOP" ++ sw ++ cl "A2 X {99999999}" ++ sv "A1 OK done" ++ cw ++ [(true, IoPoll)].
(** Without input nothing happens. *)
Definition no_input (a : io) : Prop := match a with IoRead _ => False | _ => True end.
Lemma quiet_waits : forall (x : xstate TP (server_machine toy)) (y : xstate TP (client_machine toy)) acts,
  x_f x = FRead -> x_f y = FRead -> Forall (fun a : bool * io => no_input (snd a)) acts ->
  prun toy TP TP 100 (HGen 7 0) (PsLoop x y) acts = (PsLoop x y, []).
Proof.
  intros x y acts Hx Hy H. induction H as [|[b a] acts Ha H IH]; [reflexivity|]. cbn [prun].
  assert (E : pstep toy TP TP 100 (HGen 7 0) (PsLoop x y) (b, a) = (PsLoop x y, [])).
  { destruct b, a; try contradiction; cbn [pstep]; unfold server_side, client_side;
      cbn [io_act xstep]; rewrite ?Hx, ?Hy; cbn; rewrite ?Hx, ?Hy; reflexivity. }
  now rewrite E, IH.
Qed.
Theorem C48_stall_refuted :
  p_waits stall = Some (FRead, FRead) /\
  map responding (map fst (calls_to_client (p_log stall))) =
    [RStatus (StTagged (B "A1") (StatusBody SkOk None (B "done")))] /\
  xwritten (at_client (p_log stall)) =
    ln "* OK [CAPABILITY IMAP4REV1 AUTH=PLAIN] hi" ++ ln "A2 BAD proxy: Literal rejected by proxy" /\
  (forall acts, Forall (fun a => no_input (snd a)) acts -> p_log (stall ++ acts) = p_log stall).
Proof.
  assert (W : p_waits stall = Some (FRead, FRead)) by (vm_compute; reflexivity).
  split; [exact W|]. split; [vm_compute; reflexivity|]. split; [vm_compute; reflexivity|].
  intros acts H. unfold p_log, p_run. rewrite prun_app.
  unfold p_waits, p_run in W. destruct (prun toy TP TP 100 _ _ stall) as [p l]. cbn [fst] in W.
  destruct p as [|x y|]; try discriminate. injection W as W1 W2.
  rewrite (quiet_waits x y acts W1 W2 H). cbn. apply app_nil_r.
Qed.
Print Assumptions C48_stall_refuted.

(** The response follows when the client sends something. *)
Example C48_example :
  (forall g, greeting_bytes toy g <> []) /\ (forall r, frags_bytes (enc_response toy r) <> []) /\
  xwritten (at_client (p_log (stall ++ cl "A3 NOOP" ++ cw))) =
    ln "* OK [CAPABILITY IMAP4REV1 AUTH=PLAIN] hi" ++ ln "A2 BAD proxy: Literal rejected by proxy" ++
    ln "A1 OK done" /\
  p_waits (ex_session ++ cw) = Some (FRead, FIdle).
Proof.
  split; [apply toy_nonempty|]. split; [apply toy_nonempty|]. vm_compute. auto.
Qed.
