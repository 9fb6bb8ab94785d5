(** Vocabulary for statements about a client connected to a server. *)
From Coq Require Import List NArith Bool PeanoNat.
From Verif Require Import Base Types Codec Handle ServerSend Client Server SpecFraming
  SpecClient SpecServer System.
Import ListNotations.

(** The run does not panic, ends in [y] and has log [l]. *)
Definition yran (K : Codecs) (relaxed : bool) (gc gs : hgen) (o : soptions) (gr : greeting)
    (acts : list yact) (y : sys) (l : list ylog) : Prop :=
  sys_run K (sys_new gc gs relaxed o gr) acts = (Some y, l).

(** Everything written was delivered, and both sides ask for more input. *)
Definition waiting (K : Codecs) (y : sys) : Prop :=
  y_to_server y = [] /\ y_to_client y = [] /\
  (exists c, client_next K (y_client y) = (c, [], INeedMore)) /\
  (exists s, server_next K (y_server y) = (s, [], INeedMore)).

(** The same, and the server asks twice. (After an internal response, [next] asks once
    before it sends what is enqueued.) *)
Definition waiting_twice (K : Codecs) (y : sys) : Prop :=
  waiting K y /\
  exists s1 s2, server_next K (y_server y) = (s1, [], INeedMore) /\
    server_next K s1 = (s2, [], INeedMore).

(** ** Responses *)

(** What the client is expected to make of a message of the server. *)
Definition msg_verdict (m : smsg) : cverdict :=
  match m with
  | SmGreeting g => CvGreeting g
  | SmResponse _ r => CvResponse r
  end.

(** The greetings that were reported. *)
Definition greetings (es : list cevent) : list greeting :=
  flat_map (fun e => match e with CeGreetingReceived g => [g] | _ => [] end) es.

(** What the client made of its input. *)
Definition received (l : list clog) : list cverdict := map crx_verdict (taken l).

(** The messages that the server has output. *)
Definition sent (o : soptions) (gr : greeting) (l : list slog) : list smsg :=
  firstn (length (souts l)) (scheduled o gr l).

(** The decoder reads back what the encoder wrote. *)
Definition msg_roundtrips (K : Codecs) (relaxed : bool) (m : smsg) : Prop :=
  match m with
  | SmGreeting g => exists ls, greeting_frame K relaxed (frags_bytes (enc_greeting K g)) ls (OMsg g)
  | SmResponse _ r => exists ls, response_frame K relaxed (frags_bytes (enc_response K r)) ls (OMsg r)
  end.

(** What the client's application sees of the messages: not the greeting, and not the
    continuation requests by which the server itself accepts literals. *)
Definition visible_of (m : smsg) : list response :=
  match m with
  | SmGreeting _ => []
  | SmResponse None (RCcr _) => []
  | SmResponse _ r => [r]
  end.
Definition visible (ms : list smsg) : list response := flat_map visible_of ms.

(** ** Requests *)

(** What a client sends. *)
Inductive request : Type :=
| RqCommand (c : command)
| RqData (d : auth_data)
| RqDone.

Fixpoint answers (xs : list exch) : list request :=
  match xs with
  | [] => []
  | XData _ d :: xs' => RqData d :: answers xs'
  | XDone _ :: xs' => RqDone :: answers xs'
  | _ :: xs' => answers xs'
  end.

(** The k-th command, with the data or "DONE" given for it. *)
Definition segment_requests (l : list clog) (k : nat) : list request :=
  match nth_error (enqueued l) k with
  | Some (_, c) => RqCommand c :: answers (exchange (segment k l))
  | None => []
  end.

(** Requests whose command is resolved, and additionally those of the oldest command that
    is not resolved. *)
Definition resolved_requests (l : list clog) : list request :=
  flat_map (segment_requests l) (seq 0 (length (terminals l))).
Definition requests (l : list clog) : list request :=
  flat_map (segment_requests l) (seq 0 (S (length (terminals l)))).

(** The commands among them. *)
Definition cmds (rs : list request) : list command :=
  flat_map (fun r => match r with RqCommand c => [c] | _ => [] end) rs.

(** Literals that do not exceed the limit. *)
Definition lit_fits (o : soptions) (f : fragment) : Prop :=
  match f with
  | FLine _ => True
  | FLiteral d _ => (N.of_nat (length d) <= so_max_literal_size o)%N
  end.
Definition lits_fit (o : soptions) (fs : list fragment) : Prop := Forall (lit_fits o) fs.

(** [read_as K o (raw, v) q]: what the server makes of the request [q]: it takes [raw] from
    its input, with verdict [v]. A command is rejected at its first literal that exceeds the
    limit. *)
Inductive read_as (K : Codecs) (o : soptions) : bytes * sverdict -> request -> Prop :=
| ra_command : forall c,
    lits_fit o (enc_command K c) ->
    read_as K o (frags_bytes (enc_command K c), SvCommand c) (RqCommand c)
| ra_rejected : forall c pre d post,
    enc_command K c = pre ++ FLiteral d LSync :: post -> lits_fit o pre ->
    (so_max_literal_size o < N.of_nat (length d))%N ->
    read_as K o
      (frags_bytes pre, SvLiteralTooLong (CmdLit (ctag c) (N.of_nat (length d)) LSync))
      (RqCommand c)
| ra_data : forall d, read_as K o (frags_bytes (enc_authdata K d), SvAuthData d) (RqData d)
| ra_done : read_as K o (frags_bytes (enc_idledone K), SvIdleDone) RqDone.

(** What [next] of the server reports about its input. *)
Definition sreports (l : list slog) : list s_ires := filter is_report (sresults l).

(** The event for a request. *)
Definition request_event (q : request) : sevent :=
  match q with
  | RqCommand c => command_event c
  | RqData d => SeAuthenticateDataReceived d
  | RqDone => SeIdleDoneReceived
  end.

(** ** Assumptions about the encoders and decoders for requests *)

(** [enc_ok K c p fs]: having read [p], the decoder finds in [fs] the rest of the command
    [c]: lines and literals alternate, and each line that is followed by a literal announces
    it. *)
Inductive enc_ok (K : Codecs) (c : command) : bytes -> list fragment -> Prop :=
| eo_end : forall p x,
    is_line x -> ends_crlf x -> dec_command K (p ++ x) = DecOk [] c -> enc_ok K c p [FLine x]
| eo_lit : forall p x d m fs,
    is_line x -> ends_crlf x ->
    dec_command K (p ++ x) = DecLit (CmdLit (ctag c) (N.of_nat (length d)) m) ->
    enc_ok K c (p ++ x ++ d) fs -> enc_ok K c p (FLine x :: FLiteral d m :: fs).

Definition cmd_roundtrips (K : Codecs) (c : command) : Prop := enc_ok K c [] (enc_command K c).

Definition line_roundtrips {M} (dec : bytes -> dec_result M Empty_set) (enc : list fragment) (m : M)
  : Prop := exists x, enc = [FLine x] /\ is_line x /\ ends_crlf x /\ dec x = DecOk [] m.

(** ** Assumptions about the limits of the server *)

(** Literals that are sent without asking do not exceed the limit, and neither does the
    command up to any line that the client sends. *)
Definition cmd_fits (K : Codecs) (o : soptions) (c : command) : Prop :=
  (forall d, In (FLiteral d LNonSync) (enc_command K c) ->
     (N.of_nat (length d) <= so_max_literal_size o)%N) /\
  (forall pre x post, enc_command K c = pre ++ FLine x :: post -> lits_fit o pre ->
     (N.of_nat (length (frags_bytes (pre ++ [FLine x]))) <= so_max_command_size o)%N).

Definition line_fits (o : soptions) (fs : list fragment) : Prop :=
  (N.of_nat (length (frags_bytes fs)) <= so_max_command_size o)%N.

(** ** Assumptions about the application of the server *)

(** Tag of the last AUTHENTICATE or IDLE command received. *)
Definition open_step (t : option tag) (e : slog) : option tag :=
  match e with
  | SlNext (IEvent (SeCommandAuthenticateReceived ca)) => Some (ca_tag ca)
  | SlNext (IEvent (SeIdleCommandReceived t')) => Some t'
  | _ => t
  end.
Definition open_tag (l : list slog) : option tag := fold_left open_step l None.

(** Tags of received commands, except AUTHENTICATE, and except IDLE before DONE. *)
Fixpoint completed_from (t : option tag) (l : list slog) : list tag :=
  match l with
  | [] => []
  | e :: l' =>
      match e with
      | SlNext (IEvent (SeCommandReceived c)) => [ctag c]
      | SlNext (IEvent SeIdleDoneReceived) => opt_list t
      | _ => []
      end ++ completed_from (open_step t e) l'
  end.
Definition completed (l : list slog) : list tag := completed_from None l.

(** A continuation request was sent for which no data was received. *)
Definition asked_step (b : bool) (e : slog) : bool :=
  match e with
  | SlAuthContinue _ (inl _) => true
  | SlNext (IEvent (SeAuthenticateDataReceived _)) => false
  | SlNext (IEvent (SeCommandAuthenticateReceived _)) => false
  | _ => b
  end.
Definition asked (l : list slog) : bool := fold_left asked_step l false.

(** The server's application follows the protocol: it sends continuation requests only for
    AUTHENTICATE and IDLE, and the next one only after the data for the previous one. It
    sends a tagged status only for a completed command; it ends AUTHENTICATE, and rejects
    IDLE, by a status with the tag of the command. *)
Definition polite_entry (l : list slog) (e : slog) : Prop :=
  match e with
  | SlEnqueue r _ =>
      match r with
      | RCcr _ => False
      | RStatus (StTagged t _) => In t (completed l)
      | _ => True
      end
  | SlAuthContinue _ (inl _) => asked l = false
  | SlAuthFinish s (inl _) =>
      asked l = false /\ exists t b, s = StTagged t b /\ open_tag l = Some t
  | SlIdleReject s (inl _) => exists t b, s = StTagged t b /\ open_tag l = Some t
  | _ => True
  end.
Definition polite (l : list slog) : Prop :=
  forall l1 e l2, l = l1 ++ e :: l2 -> polite_entry l1 e.

(** All assumptions, for what occurs in the log [l]. *)
Record orderly (K : Codecs) (relaxed : bool) (o : soptions) (gr : greeting) (l : list ylog)
  : Prop := Orderly {
  or_msgs : forall m, In m (scheduled o gr (slogs l)) -> msg_roundtrips K relaxed m;
  or_cmds : forall h c, In (h, c) (enqueued (clogs l)) -> cmd_roundtrips K c /\ cmd_fits K o c;
  or_data : forall d h, In (ClSetAuth d (inl h)) (clogs l) ->
    line_roundtrips (dec_authdata K) (enc_authdata K d) d /\ line_fits o (enc_authdata K d);
  or_done : forall h, In (ClSetDone (Some h)) (clogs l) ->
    line_roundtrips (dec_idledone K) (enc_idledone K) tt /\ line_fits o (enc_idledone K);
  or_size : (0 < so_max_command_size o)%N;
  or_tags : NoDup (map (fun x => ctag (snd x)) (enqueued (clogs l)));
  or_polite : polite (slogs l)
}.

(** ** Whose turn it is *)

(** The oldest command of the client that is not resolved. *)
Definition oldest (l : list clog) : option (handle * command) :=
  nth_error (enqueued l) (length (terminals l)).

(** The application of the server, or the one of the client, may answer the command. *)
Inductive turn (K : Codecs) (ls : list slog) (c : client) (s : server) : command -> Prop :=
| tu_auth_server : forall ca,
    asked ls = false -> open_tag ls = Some (ca_tag ca) ->
    (forall q, exists s' h, server_authenticate_continue s q = (s', inl h)) ->
    (forall t, exists s' h, server_authenticate_finish s t = Val (s', inl h)) ->
    turn K ls c s (command_of_authenticate ca)
| tu_auth_client : forall ca,
    (forall d x, enc_authdata K d = [FLine x] ->
       exists c' h, client_set_authenticate_data K c d = Val (c', inl h)) ->
    turn K ls c s (command_of_authenticate ca)
| tu_idle_server : forall t,
    open_tag ls = Some t ->
    (forall q, exists s' h, server_idle_accept s q = Val (s', inl h)) ->
    (forall st, exists s' h, server_idle_reject s st = Val (s', inl h)) ->
    turn K ls c s {| ctag := t; cbody := BIdle |}
| tu_idle_client : forall t,
    (forall x, enc_idledone K = [FLine x] ->
       exists c' h, client_set_idle_done K c = Val (c', Some h)) ->
    turn K ls c s {| ctag := t; cbody := BIdle |}.
