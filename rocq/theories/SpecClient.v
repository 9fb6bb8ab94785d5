(** Vocabulary for statements about client logs. Nothing here mentions the state of the
    client, only API calls and their results. *)
From Coq Require Import List NArith Bool PeanoNat.
From Verif Require Import Base Types Codec Handle Client SpecFraming.
Import ListNotations.

(** Commands in the order of [enqueue_command], with the returned handles. *)
Fixpoint enqueued (l : list clog) : list (handle * command) :=
  match l with
  | [] => []
  | ClEnqueue c h :: l' => (h, c) :: enqueued l'
  | _ :: l' => enqueued l'
  end.

(** All bytes given to [enqueue_input]. *)
Fixpoint inputs (l : list clog) : bytes :=
  match l with
  | [] => []
  | ClInput x :: l' => x ++ inputs l'
  | _ :: l' => inputs l'
  end.

(** Messages taken from the input. *)
Fixpoint taken (l : list clog) : list crx :=
  match l with
  | [] => []
  | ClRx m :: l' => m :: taken l'
  | _ :: l' => taken l'
  end.

(** Events returned by [next]. *)
Fixpoint events (l : list clog) : list cevent :=
  match l with
  | [] => []
  | ClNext (IEvent e) :: l' => e :: events l'
  | _ :: l' => events l'
  end.

(** All bytes that [next] asked to write. *)
Fixpoint outputs (l : list clog) : bytes :=
  match l with
  | [] => []
  | ClNext (IOutput b) :: l' => b ++ outputs l'
  | _ :: l' => outputs l'
  end.

(** Events that resolve a handle. *)
Definition is_terminal (e : cevent) : bool :=
  match e with
  | CeCommandSent _ _ | CeCommandRejected _ _ _ | CeAuthenticateStatusReceived _ _ _
  | CeIdleRejected _ _ | CeIdleDoneSent _ => true
  | _ => false
  end.

Definition terminals (l : list clog) : list cevent := filter is_terminal (events l).

Definition ends_segment (e : clog) : bool :=
  match e with ClNext (IEvent e) => is_terminal e | _ => false end.

(** The log is cut after each terminal event; [segment k] is the k-th piece. *)
Fixpoint segment (k : nat) (l : list clog) : list clog :=
  match l with
  | [] => []
  | e :: l' =>
      if ends_segment e then
        match k with O => [e] | S k' => segment k' l' end
      else
        match k with O => e :: segment O l' | S _ => segment k l' end
  end.

(** Steps of AUTHENTICATE and IDLE exchanges visible at the API. *)
Inductive exch : Type :=
| XStarted (h : handle)
| XCont (h : handle) (q : ccr)
| XData (h : handle) (d : auth_data)
| XIdle (h : handle)
| XAccepted (h : handle) (q : ccr)
| XDone (h : handle).

Fixpoint exchange (l : list clog) : list exch :=
  match l with
  | [] => []
  | ClNext (IEvent (CeAuthenticateStarted h)) :: l' => XStarted h :: exchange l'
  | ClNext (IEvent (CeAuthenticateContinuationRequestReceived h q)) :: l' =>
      XCont h q :: exchange l'
  | ClSetAuth d (inl h) :: l' => XData h d :: exchange l'
  | ClNext (IEvent (CeIdleCommandSent h)) :: l' => XIdle h :: exchange l'
  | ClNext (IEvent (CeIdleAccepted h q)) :: l' => XAccepted h q :: exchange l'
  | ClSetDone (Some h) :: l' => XDone h :: exchange l'
  | _ :: l' => exchange l'
  end.

(** Completed rounds of an AUTHENTICATE exchange: a continuation request, then data. *)
Inductive rounds (h : handle) : list exch -> list auth_data -> Prop :=
| rounds_nil : rounds h [] []
| rounds_snoc : forall xs ds q d,
    rounds h xs ds -> rounds h (xs ++ [XCont h q; XData h d]) (ds ++ [d]).

(** A tagged status for tag [t]. *)
Definition tagged_status (t : tag) (s : status) : Prop := exists b, s = StTagged t b.
Definition tagged_bad (t : tag) (s : status) : Prop :=
  exists b, s = StTagged t b /\ sb_kind b = SkBad.

(** Commands that are not AUTHENTICATE or IDLE. *)
Definition regular (c : command) : Prop := exists p, cbody c = BOther p.

(** Number of synchronizing literals. *)
Fixpoint nsync (fs : list fragment) : nat :=
  match fs with
  | [] => 0
  | FLiteral _ LSync :: fs' => S (nsync fs')
  | _ :: fs' => nsync fs'
  end.

(** The response reported by an event. *)
Definition reported (e : cevent) : option response :=
  match e with
  | CeCommandRejected _ _ s | CeAuthenticateStatusReceived _ _ s | CeIdleRejected _ s
  | CeStatusReceived s => Some (RStatus s)
  | CeDataReceived d => Some (RData d)
  | CeAuthenticateContinuationRequestReceived _ q | CeIdleAccepted _ q
  | CeContinuationRequestReceived q => Some (RCcr q)
  | CeGreetingReceived _ | CeCommandSent _ _ | CeAuthenticateStarted _
  | CeIdleCommandSent _ | CeIdleDoneSent _ => None
  end.

(** Next entry of the log: an event that reports a response. *)
Definition reports (l : list clog) : bool :=
  match l with
  | ClNext (IEvent e) :: _ => match reported e with Some _ => true | None => false end
  | _ => false
  end.

(** Number of continuation requests that were consumed without being reported. *)
Fixpoint silent (l : list clog) : nat :=
  match l with
  | [] => 0
  | ClRx (Crx _ (CvResponse (RCcr _))) :: l' => (if reports l' then 0 else 1) + silent l'
  | _ :: l' => silent l'
  end.

Section Conversation.
  Variable K : Codecs.

  (** What was emitted and exchanged for a command until its handle was resolved by the
      terminal event; the number is that of the silently consumed continuation requests. *)
  Inductive conversation (h : handle) (c : command)
    : bytes -> list exch -> nat -> cevent -> Prop :=
  | cv_sent :
      regular c ->
      conversation h c (frags_bytes (enc_command K c)) [] (nsync (enc_command K c))
        (CeCommandSent h c)
  | cv_rejected : forall pre d post s,
      regular c ->
      enc_command K c = pre ++ FLiteral d LSync :: post ->
      tagged_bad (ctag c) s ->
      conversation h c (frags_bytes pre) [] (nsync pre) (CeCommandRejected h c s)
  | cv_auth : forall ca line xs ds lines tl s,
      c = command_of_authenticate ca ->
      enc_command K c = [FLine line] ->
      rounds h xs ds ->
      map (enc_authdata K) ds = map (fun x => [FLine x]) lines ->
      (tl = [] \/ exists q, tl = [XCont h q]) ->
      tagged_status (ctag c) s ->
      conversation h c (line ++ concat lines) (XStarted h :: xs ++ tl) 0
        (CeAuthenticateStatusReceived h ca s)
  | cv_idle_rejected : forall line tl s,
      cbody c = BIdle ->
      enc_command K c = [FLine line] ->
      (tl = [] \/ exists q, tl = [XAccepted h q]) ->
      tagged_status (ctag c) s ->
      conversation h c line (XIdle h :: tl) 0 (CeIdleRejected h s)
  | cv_idle_done : forall line q dn,
      cbody c = BIdle ->
      enc_command K c = [FLine line] ->
      enc_idledone K = [FLine dn] ->
      conversation h c (line ++ dn) [XIdle h; XAccepted h q; XDone h] 0 (CeIdleDoneSent h).

  (** The same for a command whose handle is not yet resolved. *)
  Inductive conversing (h : handle) (c : command) : bytes -> list exch -> nat -> Prop :=
  | cg_nothing : conversing h c [] [] 0
  | cg_regular : forall pre post,
      regular c -> enc_command K c = pre ++ post ->
      conversing h c (frags_bytes pre) [] (nsync pre)
  | cg_released : forall pre d post,
      regular c -> enc_command K c = pre ++ FLiteral d LSync :: post ->
      conversing h c (frags_bytes pre) [] (S (nsync pre))
  | cg_auth_sending : forall ca line,
      c = command_of_authenticate ca -> enc_command K c = [FLine line] ->
      conversing h c line [] 0
  | cg_auth : forall ca line xs ds lines tl,
      c = command_of_authenticate ca ->
      enc_command K c = [FLine line] ->
      rounds h xs ds ->
      map (enc_authdata K) ds = map (fun x => [FLine x]) lines ->
      (tl = [] \/ (exists q, tl = [XCont h q]) \/
       (exists q d x, tl = [XCont h q; XData h d] /\ enc_authdata K d = [FLine x])) ->
      conversing h c (line ++ concat lines) (XStarted h :: xs ++ tl) 0
  | cg_idle : forall line xs,
      cbody c = BIdle -> enc_command K c = [FLine line] ->
      (xs = [] \/ xs = [XIdle h] \/ (exists q, xs = [XIdle h; XAccepted h q]) \/
       (exists q, xs = [XIdle h; XAccepted h q; XDone h])) ->
      conversing h c line xs 0
  | cg_idle_done : forall line q dn,
      cbody c = BIdle -> enc_command K c = [FLine line] -> enc_idledone K = [FLine dn] ->
      conversing h c (line ++ dn) [XIdle h; XAccepted h q; XDone h] 0.

  (** In the part [s] of a log a continuation request was received when exactly the bytes
      [b] had been emitted. *)
  Definition agreed_after (s : list clog) (b : bytes) : Prop :=
    exists s1 raw q s2, s = s1 ++ ClRx (Crx raw (CvResponse (RCcr q))) :: s2 /\ outputs s1 = b.

  (** Wherever bytes of a synchronizing literal of [c] were emitted in [seg], the server had
      agreed to it. *)
  Definition all_agreed (c : command) (seg : list clog) : Prop :=
    forall pre d post, enc_command K c = pre ++ FLiteral d LSync :: post ->
      length (frags_bytes pre) < length (outputs seg) -> agreed_after seg (frags_bytes pre).
End Conversation.

(** The oldest command whose handle is not resolved. *)
Definition current (l : list clog) : option (handle * command) :=
  nth_error (enqueued l) (length (terminals l)).

(** The last segment, which belongs to the oldest unresolved command. *)
Definition cur_seg (l : list clog) : list clog := segment (length (terminals l)) l.

Definition last_exch (l : list clog) : option exch := last (map Some (exchange (cur_seg l))) None.

Definition is_tag (t : tag) (s : status) : bool :=
  match s with StTagged t' _ => bytes_eqb t' t | _ => false end.
Definition is_tagged_bad (t : tag) (s : status) : bool :=
  match s with
  | StTagged t' b => match sb_kind b with SkBad => bytes_eqb t' t | _ => false end
  | _ => false
  end.

(** What the client does with a response, given the oldest unresolved command, and the last
    step of its exchange: report an event, or ([None]) send a literal. *)
Definition reaction (cur : option (handle * command)) (last : option exch) (r : response)
  : option cevent :=
  match r with
  | RData d => Some (CeDataReceived d)
  | RStatus s =>
      match cur with
      | None => Some (CeStatusReceived s)
      | Some (h, c) =>
          match cbody c with
          | BOther _ =>
              if is_tagged_bad (ctag c) s then Some (CeCommandRejected h c s)
              else Some (CeStatusReceived s)
          | BAuthenticate mech ir =>
              if is_tag (ctag c) s
              then Some (CeAuthenticateStatusReceived h (CommandAuthenticate (ctag c) mech ir) s)
              else Some (CeStatusReceived s)
          | BIdle =>
              if is_tag (ctag c) s then Some (CeIdleRejected h s)
              else Some (CeStatusReceived s)
          end
      end
  | RCcr q =>
      match cur with
      | None => Some (CeContinuationRequestReceived q)
      | Some (h, c) =>
          match cbody c with
          | BOther _ => None
          | BAuthenticate _ _ =>
              match last with
              | Some (XCont _ _) => Some (CeContinuationRequestReceived q)
              | _ => Some (CeAuthenticateContinuationRequestReceived h q)
              end
          | BIdle =>
              match last with
              | Some (XAccepted _ _) => Some (CeContinuationRequestReceived q)
              | _ => Some (CeIdleAccepted h q)
              end
          end
      end
  end.

(** The greeting was reported. *)
Definition greeted (l : list clog) : Prop := exists g, In (CeGreetingReceived g) (events l).

Section Waiting.
  Variable K : Codecs.

  (** The command cannot be continued: the client has to wait for the server or for the
      application. [n] continuation requests were consumed silently. *)
  Inductive stuck (h : handle) (c : command) : bytes -> list exch -> nat -> Prop :=
  | st_literal : forall pre d post,
      regular c -> enc_command K c = pre ++ FLiteral d LSync :: post ->
      stuck h c (frags_bytes pre) [] (nsync pre)
  | st_auth : forall ca line xs ds lines tl,
      c = command_of_authenticate ca ->
      enc_command K c = [FLine line] ->
      rounds h xs ds ->
      map (enc_authdata K) ds = map (fun x => [FLine x]) lines ->
      (tl = [] \/ exists q, tl = [XCont h q]) ->
      stuck h c (line ++ concat lines) (XStarted h :: xs ++ tl) 0
  | st_idle : forall line tl,
      cbody c = BIdle ->
      enc_command K c = [FLine line] ->
      (tl = [] \/ exists q, tl = [XAccepted h q]) ->
      stuck h c line (XIdle h :: tl) 0.
End Waiting.

(** The frame [raw] and the verdict on it, as the codec sees it. *)
Section Frames.
  Variable K : Codecs.
  Variable relaxed : bool.

  (** Literals in responses are accepted whatever their length; greetings have none. *)
  Definition accept_any (n : N) : option N := Some n.
  Definition accept_none (e : Empty_set) : option N := match e with end.

  Definition greeting_frame := framed (dec_greeting K) relaxed accept_none.
  Definition response_frame := framed (dec_response K) relaxed accept_any.

  Definition frame_verdict (was_greeted : bool) (m : crx) : Prop :=
    match crx_verdict m, was_greeted with
    | CvGreeting g, false => exists ls, greeting_frame (crx_raw m) ls (OMsg g)
    | CvResponse r, true => exists ls, response_frame (crx_raw m) ls (OMsg r)
    | CvMalformed, false => exists ls, greeting_frame (crx_raw m) ls OMalformed
    | CvMalformed, true => exists ls, response_frame (crx_raw m) ls OMalformed
    | CvBareLf, false => exists ls, greeting_frame (crx_raw m) ls OBareLf
    | CvBareLf, true => exists ls, response_frame (crx_raw m) ls OBareLf
    | _, _ => False
    end.

  Definition is_greeting_ev (e : cevent) : bool :=
    match e with CeGreetingReceived _ => true | _ => false end.

  (** Whether the greeting was already reported, as a boolean. *)
  Definition greetedb (l : list clog) : bool := existsb is_greeting_ev (events l).

  (** Contract of the decoders: a decoded message is the whole frame. *)
  Definition no_trailing : Prop :=
    (forall raw ls m, ~ greeting_frame raw ls (OTrailing m)) /\
    (forall raw ls m, ~ response_frame raw ls (OTrailing m)).

  (** Contract of the encoders. *)
  Definition single_lines : Prop :=
    (forall c, ~ regular c -> exists x, enc_command K c = [FLine x]) /\
    (forall d, exists x, enc_authdata K d = [FLine x]) /\
    (exists x, enc_idledone K = [FLine x]).

End Frames.

(** What follows a received message in the log. *)
Definition follows (m : crx) (l2 : list clog) : Prop :=
  match crx_verdict m with
  | CvGreeting g => exists l3, l2 = ClNext (IEvent (CeGreetingReceived g)) :: l3
  | CvMalformed => exists l3, l2 = ClNext (IError (CerrMalformedMessage (crx_raw m))) :: l3
  | CvBareLf => exists l3, l2 = ClNext (IError (CerrExpectedCrlfGotLf (crx_raw m))) :: l3
  | CvResponse r =>
      (exists e l3, l2 = ClNext (IEvent e) :: l3 /\ reported e = Some r) \/
      (exists q, r = RCcr q /\ reports l2 = false)
  end.


(** The run [ops] from a new client does not panic, ends in [c] and has log [l]. *)
Definition ran (K : Codecs) (relaxed : bool) (g : hgen) (ops : list cop)
    (c : client) (l : list clog) : Prop :=
  client_run K (client_new g relaxed) ops = (Some c, l).

(** The terminal event belongs to handle and command. *)
Definition resolves (h : handle) (c : command) (t : cevent) : Prop :=
  match t with
  | CeCommandSent h' c' | CeCommandRejected h' c' _ => h' = h /\ c' = c
  | CeAuthenticateStatusReceived h' ca _ => h' = h /\ command_of_authenticate ca = c
  | CeIdleRejected h' _ | CeIdleDoneSent h' => h' = h /\ cbody c = BIdle
  | _ => False
  end.

(** Responses that were taken from the input and directly reported. *)
Fixpoint delivered (l : list clog) : list response :=
  match l with
  | [] => []
  | ClRx (Crx _ (CvResponse r)) :: l' => if reports l' then r :: delivered l' else delivered l'
  | _ :: l' => delivered l'
  end.

(** Responses contained in events, in order. *)
Fixpoint reported_all (es : list cevent) : list response :=
  match es with
  | [] => []
  | e :: es' => match reported e with Some r => r :: reported_all es' | None => reported_all es' end
  end.

(** What is reported was received immediately before; [l1] is the log up to the report. *)
Definition report_origin (l1 : list clog) (r : c_ires) : Prop :=
  match r with
  | IEvent (CeGreetingReceived x) => exists l0 raw, l1 = l0 ++ [ClRx (Crx raw (CvGreeting x))]
  | IEvent e =>
      match reported e with
      | Some x => exists l0 raw, l1 = l0 ++ [ClRx (Crx raw (CvResponse x))]
      | None => True
      end
  | IError (CerrMalformedMessage d) => exists l0, l1 = l0 ++ [ClRx (Crx d CvMalformed)]
  | IError (CerrExpectedCrlfGotLf d) => exists l0, l1 = l0 ++ [ClRx (Crx d CvBareLf)]
  | _ => True
  end.

(** Line ends of the last line of a message. *)
Definition line_end_ok (relaxed : bool) (m : crx) : Prop :=
  match crx_verdict m with
  | CvBareLf => relaxed = false /\
      exists q x, crx_raw m = q ++ x /\ is_line x /\ ~ ends_crlf x
  | _ => relaxed = false -> ends_crlf (crx_raw m)
  end.
