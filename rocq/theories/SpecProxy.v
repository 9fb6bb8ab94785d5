(** Vocabulary for statements about the proxy (Proxy.v). *)
From Coq Require Import List NArith Bool String.
From Verif Require Import Base Types Codec Client Server SpecClient Stream StreamMachine Proxy.
Import ListNotations.
Open Scope list_scope.

(** ** Capabilities *)

(** Mechanisms that can be proxied: not bound to the TLS session, and known. *)
Definition supported_mechanisms : list auth_mech :=
  [AMPlain; AMLogin; AMXOAuth2; AMScramSha1; AMScramSha256].

(** Capabilities that the proxy supports, apart from the ones with arguments. *)
Definition supported_names : list capability :=
  [CapImap4Rev1; CapSaslIr; CapQuota; CapQuotaSet; CapMove; CapLiteralPlus; CapLiteralMinus;
   CapUnselect; CapId; CapIdle].

Definition supported (c : capability) : Prop :=
  In c supported_names \/ (exists r, c = CapQuotaRes r) \/
  (exists m, c = CapAuth m /\ In m supported_mechanisms).

(** [l'] consists of the supported members of [l], in order. *)
Inductive keeps : list capability -> list capability -> Prop :=
| keeps_nil : keeps [] []
| keeps_yes : forall c l l', supported c -> keeps l l' -> keeps (c :: l) (c :: l')
| keeps_no : forall c l l', ~ supported c -> keeps l l' -> keeps (c :: l) l'.

(** What becomes of a list of capabilities. *)
Definition reduced (v v' : vec1 capability) : Prop :=
  keeps (v1_list v) (v1_list v') \/ (keeps (v1_list v) [] /\ v1_list v' = [CapImap4Rev1]).

(** Capabilities are reduced, everything else is unchanged. *)
Inductive code_reduced : option code -> option code -> Prop :=
| cr_caps : forall v v', reduced v v' -> code_reduced (Some (CodeCapability v)) (Some (CodeCapability v'))
| cr_same : forall c, (forall v, c <> Some (CodeCapability v)) -> code_reduced c c.

Inductive body_reduced : status_body -> status_body -> Prop :=
| br : forall k c c' t, code_reduced c c' -> body_reduced (StatusBody k c t) (StatusBody k c' t).

Inductive response_reduced : response -> response -> Prop :=
| rr_caps : forall v v', reduced v v' ->
    response_reduced (RData (DCapability v)) (RData (DCapability v'))
| rr_data : forall p, response_reduced (RData (DOther p)) (RData (DOther p))
| rr_tagged : forall t b b', body_reduced b b' ->
    response_reduced (RStatus (StTagged t b)) (RStatus (StTagged t b'))
| rr_untagged : forall b b', body_reduced b b' ->
    response_reduced (RStatus (StUntagged b)) (RStatus (StUntagged b'))
| rr_bye : forall c c' t, code_reduced c c' ->
    response_reduced (RStatus (StBye c t)) (RStatus (StBye c' t))
| rr_basic : forall c c' t, code_reduced c c' ->
    response_reduced (RCcr (CcrBasic c t)) (RCcr (CcrBasic c' t))
| rr_base64 : forall d, response_reduced (RCcr (CcrBase64 d)) (RCcr (CcrBase64 d)).

Inductive greeting_reduced : greeting -> greeting -> Prop :=
| gr : forall k c c' t, code_reduced c c' -> greeting_reduced (Greeting k c t) (Greeting k c' t).

(** The capabilities in a message. *)
Definition code_caps (c : option code) : list capability :=
  match c with Some (CodeCapability v) => v1_list v | _ => [] end.
Definition response_caps (r : response) : list capability :=
  match r with
  | RData (DCapability v) => v1_list v
  | RData (DOther _) => []
  | RStatus (StTagged _ b) | RStatus (StUntagged b) => code_caps (sb_code b)
  | RStatus (StBye c _) => code_caps c
  | RCcr (CcrBasic c _) => code_caps c
  | RCcr (CcrBase64 _) => []
  end.

(** ** Logs *)

Section Logs.
Context {K : Codecs}.

(** Entries of the two streams. *)
Fixpoint at_client (l : list (plog K)) : list (xlog (server_machine K)) :=
  match l with
  | [] => []
  | PlClient e :: l' => e :: at_client l'
  | _ :: l' => at_client l'
  end.
Fixpoint at_server (l : list (plog K)) : list (xlog (client_machine K)) :=
  match l with
  | [] => []
  | PlServer e :: l' => e :: at_server l'
  | _ :: l' => at_server l'
  end.

(** Events reported by the stream to the client, and by the stream to the server. *)
Fixpoint client_events (l : list (plog K)) : list sevent :=
  match l with
  | [] => []
  | PlClient (XRet (RetEvent e)) :: l' => (e : sevent) :: client_events l'
  | _ :: l' => client_events l'
  end.
Fixpoint server_events (l : list (plog K)) : list cevent :=
  match l with
  | [] => []
  | PlServer (XRet (RetEvent e)) :: l' => (e : cevent) :: server_events l'
  | _ :: l' => server_events l'
  end.

(** Calls made for the client, at the [Server]; calls made for the server, at the [Client]. *)
Fixpoint calls_to_client (l : list (plog K)) : list (sapp * slog) :=
  match l with
  | [] => []
  | PlClient (XCall o r) :: l' => ((o : sapp), (r : slog)) :: calls_to_client l'
  | _ :: l' => calls_to_client l'
  end.
Fixpoint calls_to_server (l : list (plog K)) : list (capp * clog) :=
  match l with
  | [] => []
  | PlServer (XCall o r) :: l' => ((o : capp), (r : clog)) :: calls_to_server l'
  | _ :: l' => calls_to_server l'
  end.
End Logs.

(** What the client asked for. *)
Inductive request : Type :=
| RqCommand (c : command)
| RqData (d : auth_data)
| RqDone.

Definition requested (e : sevent) : list request :=
  match e with
  | SeCommandReceived c => [RqCommand c]
  | SeCommandAuthenticateReceived ca =>
      [RqCommand (Command (ca_tag ca) (BAuthenticate (ca_mechanism ca) (ca_initial_response ca)))]
  | SeIdleCommandReceived t => [RqCommand (Command t BIdle)]
  | SeAuthenticateDataReceived d => [RqData d]
  | SeIdleDoneReceived => [RqDone]
  | SeGreetingSent _ | SeResponseSent _ _ => []
  end.

Definition requesting (o : capp) : request :=
  match o with
  | CaEnqueueCommand c => RqCommand c
  | CaSetAuthenticateData d => RqData d
  | CaSetIdleDone => RqDone
  end.

(** The response that a call gives to the [Server]. *)
Definition responding (o : sapp) : response :=
  match o with
  | SaEnqueue r => r
  | SaAuthenticateContinue q | SaIdleAccept q => RCcr q
  | SaAuthenticateFinish t | SaIdleReject t => RStatus t
  end.

(** What the proxy gives to its client when it learns of a response of the server. *)
Inductive relayed : cevent -> sapp -> Prop :=
| rl_auth_continue : forall h q,
    relayed (CeAuthenticateContinuationRequestReceived h q) (SaAuthenticateContinue q)
| rl_auth_finish : forall h ca t, relayed (CeAuthenticateStatusReceived h ca t) (SaAuthenticateFinish t)
| rl_idle_accept : forall h q, relayed (CeIdleAccepted h q) (SaIdleAccept q)
| rl_idle_reject : forall h t, relayed (CeIdleRejected h t) (SaIdleReject t)
| rl_alert : forall h c t b, sb_code b = Some CodeAlert ->
    relayed (CeCommandRejected h c (StTagged t b))
      (SaEnqueue (RStatus (StTagged (ctag c) (StatusBody SkBad (Some CodeAlert) (sb_text b)))))
| rl_rejected : forall h c t b, sb_code b <> Some CodeAlert ->
    relayed (CeCommandRejected h c (StTagged t b))
      (SaEnqueue (RStatus (StTagged (ctag c)
        (StatusBody SkBad None (list_byte_of_string "proxy: Command rejected by server")))))
| rl_other : forall e r r',
    (match e with CeDataReceived _ | CeStatusReceived _ | CeContinuationRequestReceived _ => True
     | _ => False end) ->
    reported e = Some r -> response_reduced r r' -> relayed e (SaEnqueue r').

(** Events that report a response. *)
Definition is_report (e : cevent) : bool :=
  match reported e with Some _ => true | None => false end.

(** The call was refused. *)
Definition c_refused (e : clog) : bool :=
  match e with ClSetAuth _ (inr _) | ClSetDone None => true | _ => false end.
Definition s_refused (e : slog) : bool :=
  match e with
  | SlAuthContinue _ (inr _) | SlAuthFinish _ (inr _)
  | SlIdleAccept _ (inr _) | SlIdleReject _ (inr _) => true
  | _ => false
  end.

(** Forwarding is complete; all calls have succeeded. *)
Definition forwards {K} (l : list (plog K)) : Prop :=
  flat_map requested (client_events l) = map requesting (map fst (calls_to_server l)) /\
  Forall2 relayed (filter is_report (server_events l)) (map fst (calls_to_client l)).
Definition succeeded {K} (l : list (plog K)) : Prop :=
  Forall (fun x => c_refused (snd x) = false) (calls_to_server l) /\
  Forall (fun x => s_refused (snd x) = false) (calls_to_client l).

(** The server asked for authentication data and none was sent since. *)
Definition asked_step {K} (b : bool) (e : plog K) : bool :=
  match e with
  | PlServer (XRet (RetEvent e)) =>
      match (e : cevent) with
      | CeAuthenticateContinuationRequestReceived _ _ => true
      | CeAuthenticateStatusReceived _ _ _ => false
      | _ => b
      end
  | PlServer (XCall _ r) => match (r : clog) with ClSetAuth _ (inl _) => false | _ => b end
  | _ => b
  end.
Definition asked {K} (l : list (plog K)) : bool := fold_left asked_step l false.

(** The server accepted IDLE and the client did not end it since. *)
Definition idling_step {K} (b : bool) (e : plog K) : bool :=
  match e with
  | PlServer (XRet (RetEvent e)) => match (e : cevent) with CeIdleAccepted _ _ => true | _ => b end
  | PlServer (XCall _ r) => match (r : clog) with ClSetDone (Some _) => false | _ => b end
  | _ => b
  end.
Definition idling {K} (l : list (plog K)) : bool := fold_left idling_step l false.

(** ** How the proxy ends *)

(** The connection is lost. *)
Definition is_lost {M} (r : sret M) : bool :=
  match r with RetClosed | RetIo | RetTls => true | _ => false end.
Definition loses {K} (e : plog K) : bool :=
  match e with
  | PlClient (XRet r) => is_lost r
  | PlServer (XRet r) => is_lost r
  | _ => false
  end.

(** [Client] or [Server] panicked. *)
Definition broken {K} (l : list (plog K)) : Prop := In (PlClient XPanic) l \/ In (PlServer XPanic) l.

(** The unexpected authentication data, or status, that made an [unwrap] panic. *)
Inductive culprit {K} : list (plog K) -> Prop :=
| cu_data : forall l d, asked l = false -> ~ In PlPanic l ->
    culprit (l ++ [PlServer (@XCall (client_machine K) (CaSetAuthenticateData d) (ClSetAuth d (inr d)));
                   PlPanic])
| cu_idle : forall l t, idling l = true -> ~ In PlPanic l ->
    culprit (l ++ [PlClient (@XCall (server_machine K) (SaIdleReject t) (SlIdleReject t (inr t)));
                   PlPanic]).

(** A malformed message instead of the greeting. *)
Definition no_greeting {K} (l : list (plog K)) : Prop :=
  server_events l = [] /\ exists e, In (PlServer (@XRet (client_machine K) (RetState e))) l.

Inductive cause {K} : pend -> list (plog K) -> Prop :=
| ca_unwrap : forall l, culprit l -> cause PePanicked l
| ca_broken : forall l, broken l -> cause PePanicked l
| ca_hung : forall l, In (PlClient XHang) l \/ In (PlServer XHang) l -> cause PeHung l
| ca_lost : forall l, existsb loses l = true -> cause PeAborted l
| ca_greeting : forall l, no_greeting l -> cause PeAborted l.
