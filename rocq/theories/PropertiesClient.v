(** Properties of the client (C01-C20). Vocabulary: SpecClient.v, SpecFraming.v,
    SpecDrive.v. [ran K relaxed g ops c l]: the API calls [ops] on a new client end in
    state [c] with the log [l] of all calls and results. *)
From Coq Require Import List NArith Bool PeanoNat.
From Coq Require String.
Import (notations) String.
From Verif Require Import Base Types Codec Handle Receive ClientSend Client SpecFraming
  SpecClient SpecDrive ToyCodec ToyLaws ClientThms ClientExamples.
Import ListNotations.
Open Scope list_scope.
Open Scope nat_scope.

(** ** C01 *)

(** From every reachable state, with every application: the histories that can be reached
    do not depend on how the remaining input is cut into chunks. *)
Theorem C01_client_chunking : forall K relaxed g ops c l,
  ran K relaxed g ops c l ->
  forall app xs ys h, concat xs = concat ys ->
  (drive K app c xs [] h <-> drive K app c ys [] h).
Proof. exact chunking. Qed.
Print Assumptions C01_client_chunking.

(** An application that enqueues LOGIN after the greeting. *)
Definition ex_app (h : list clog) : option cop :=
  match h with
  | [ClNext (IEvent (CeGreetingReceived _))] => Some (CopEnqueueCommand ex_login)
  | _ => None
  end.
Ltac drive_step :=
  first
  [ eapply d_feed; [reflexivity|vm_compute; reflexivity|vm_compute; reflexivity|]
  | eapply d_next; [reflexivity|vm_compute; reflexivity|discriminate|discriminate|]
  | eapply d_call; [vm_compute; reflexivity|exact I|vm_compute; reflexivity|] ].

Example C01_client_chunking_example :
  let c := client_new ex_gen false in
  exists h, drive toy ex_app c [B "* OK h"; B "i" ++ crlf ++ B "+"; ln " go"] [] h /\
    outputs h = ln "A2 LOGIN {5}" ++ B "alice" ++ ln " {3+}" ++ ln "bob" /\
    drive toy ex_app c [ln "* OK hi" ++ B "+ go" ++ [CR]; [LF]] [] h.
Proof.
  eexists. split; [|split].
  - do 8 drive_step. apply d_stop.
  - vm_compute. reflexivity.
  - do 7 drive_step. apply d_stop.
Qed.

(** ** C02 *)

Theorem C02_client_partition : forall K relaxed g ops c l,
  ran K relaxed g ops c l ->
  inputs l = concat (map crx_raw (taken l)) ++ client_buf c.
Proof. exact partition. Qed.
Print Assumptions C02_client_partition.

Example C02_client_partition_example :
  let ops := ops_login ++ [CopEnqueueInput (B "* BYE"); CopNext] in
  ran toy false ex_gen ops (ex_client false ops) (ex_log false ops) /\
  length (taken (ex_log false ops)) = 6 /\ client_buf (ex_client false ops) = B "* BYE".
Proof. vm_compute. auto. Qed.

(** ** C03 *)

(** Every message taken from the input is one frame with the verdict of the codec, and the
    log continues with exactly the corresponding report. *)
Theorem C03_client_frames : forall K relaxed g ops c l,
  ran K relaxed g ops c l ->
  forall l1 m l2, l = l1 ++ ClRx m :: l2 ->
  frame_verdict K relaxed (greetedb l1) m /\ follows m l2.
Proof. exact frames. Qed.
Print Assumptions C03_client_frames.

(** Nothing is reported that was not received. *)
Theorem C03_client_reports : forall K relaxed g ops c l,
  ran K relaxed g ops c l ->
  forall l1 r l2, l = l1 ++ ClNext r :: l2 -> report_origin l1 r.
Proof. exact origins. Qed.
Print Assumptions C03_client_reports.

(** An input has at most one first frame. *)
Theorem C03_framing_unique : forall M L (dec : bytes -> dec_result M L) relaxed acc
    w1 w2 ls1 ls2 o1 o2 r1 r2,
  framed dec relaxed acc w1 ls1 o1 -> framed dec relaxed acc w2 ls2 o2 ->
  w1 ++ r1 = w2 ++ r2 ->
  w1 = w2 /\ ls1 = ls2 /\ o1 = o2.
Proof. exact (fun M L => @framing_unique M L). Qed.
Print Assumptions C03_framing_unique.

(** A response with a literal that contains line ends, and its report. *)
Example C03_client_example :
  let l := ex_log false ops_login in
  exists l1 l2, l = l1 ++ ClRx (Crx (ln "* SEARCH {4}" ++ [CR; LF; LF; CR] ++ ln "x")
      (CvResponse (RData (DOther (ln "SEARCH {4}" ++ [CR; LF; LF; CR] ++ B "x"))))) :: l2 /\
    exists l3, l2 = ClNext (IEvent (CeDataReceived
      (DOther (ln "SEARCH {4}" ++ [CR; LF; LF; CR] ++ B "x")))) :: l3.
Proof.
  exists (firstn 13 (ex_log false ops_login)), (skipn 14 (ex_log false ops_login)).
  split; [vm_compute; reflexivity|eexists; vm_compute; reflexivity].
Qed.

Example C03_framing_example :
  framed (dec_response toy) false accept_any
    (ln "* SEARCH {4}" ++ [CR; LF; LF; CR] ++ ln "x") [4%N]
    (OMsg (RData (DOther (ln "SEARCH {4}" ++ [CR; LF; LF; CR] ++ B "x")))).
Proof.
  unfold framed.
  apply (scan_lit _ _ _ [] (ln "* SEARCH {4}") 4%N 4%N [CR; LF; LF; CR] (ln "x") []).
  - exists (B "* SEARCH {4}" ++ [CR]). split; [reflexivity|]. vm_compute. intuition discriminate.
  - right. exists (B "* SEARCH {4}"). reflexivity.
  - vm_compute. reflexivity.
  - reflexivity.
  - reflexivity.
  - apply scan_end.
    + exists (B "x" ++ [CR]). split; [reflexivity|]. vm_compute. intuition discriminate.
    + apply v_msg; [right; exists (B "x"); reflexivity|vm_compute; reflexivity].
Qed.

(** ** C04 *)

(** Without relaxation every decoded (or malformed) message ends with CR LF, and the error
    is raised only for a line that does not. *)
Theorem C04_client_line_ends : forall K relaxed g ops c l,
  ran K relaxed g ops c l ->
  forall m, In m (taken l) -> line_end_ok relaxed m.
Proof. exact line_ends. Qed.
Print Assumptions C04_client_line_ends.

Theorem C04_client_relaxed : forall K relaxed g ops c l,
  ran K relaxed g ops c l -> relaxed = true ->
  forall d, ~ In (ClNext (IError (CerrExpectedCrlfGotLf d))) l.
Proof. exact relaxed_no_error. Qed.
Print Assumptions C04_client_relaxed.

Example C04_client_example :
  In (Crx (B "+ go" ++ [LF]) CvBareLf) (taken (ex_log false ops_login)) /\
  In (ClNext (IError (CerrExpectedCrlfGotLf (B "+ go" ++ [LF])))) (ex_log false ops_login) /\
  ran toy true ex_gen ops_login (ex_client true ops_login) (ex_log true ops_login) /\
  In (Crx (B "+ go" ++ [LF]) (CvResponse (RCcr (CcrBasic None (B "go")))))
    (taken (ex_log true ops_login)).
Proof. vm_compute. intuition. Qed.

(** ** C07 *)

(** When [next] asks for input, the oldest unresolved command (if any) waits for the server
    or for the application, and the unread input contains no complete message. *)
Theorem C07_client_need_more : forall K relaxed g ops c l,
  ran K relaxed g ops c l ->
  forall l1 l2, l = l1 ++ ClNext INeedMore :: l2 ->
  (greeted l1 ->
   match current l1 with
   | None => length (terminals l1) = length (enqueued l1)
   | Some (h, cm) =>
       stuck K h cm (outputs (cur_seg l1)) (exchange (cur_seg l1)) (silent (cur_seg l1))
   end) /\
  exists unread, inputs l1 = concat (map crx_raw (taken l1)) ++ unread /\
    (greeted l1 -> ~ has_message (dec_response K) relaxed accept_any unread) /\
    (~ greeted l1 -> ~ has_message (dec_greeting K) relaxed accept_none unread).
Proof. exact need_more. Qed.
Print Assumptions C07_client_need_more.

(** The client waits with an unfinished command. *)
Example C07_client_example :
  let l1 := firstn 15 (ex_log false ops_login) in
  (exists l2, ex_log false ops_login = l1 ++ ClNext INeedMore :: l2) /\ greetedb l1 = true /\
  current l1 = Some (hd_ 1, ex_login) /\ outputs (cur_seg l1) = ln "A2 LOGIN {5}".
Proof. vm_compute. split; [eexists; reflexivity|auto]. Qed.

(** ** C08 *)

(** The loops of the model are bounded by fuel; the bound is never reached, and [next]
    returns a proper result. *)
Theorem C08_client_returns : forall K relaxed g ops c l,
  ran K relaxed g ops c l ->
  forall c' rx r, client_next K c = (c', rx, r) -> r <> IFuel /\ r <> INone.
Proof. exact returns. Qed.
Print Assumptions C08_client_returns.

(** With nothing else happening, [next] asks for input after a number of calls that is
    linear in the unread bytes and unresolved commands. *)
Theorem C08_client_bounded : forall K relaxed g ops c l,
  ran K relaxed g ops c l ->
  forall n c' l', client_run K c (repeat CopNext n) = (Some c', l') ->
  3 * (length (client_buf c) + (length (enqueued l) - length (terminals l))) < n ->
  In (ClNext INeedMore) l'.
Proof. exact bounded_nexts. Qed.
Print Assumptions C08_client_bounded.

Example C08_client_example :
  let ops := firstn 8 ops_login in
  let c := ex_client false ops in
  ran toy false ex_gen ops c (ex_log false ops) /\
  length (enqueued (ex_log false ops)) = 2 /\ client_buf c <> [] /\
  exists c' l', client_run toy c (repeat CopNext 200) = (Some c', l') /\
    length (events l') = 3.
Proof.
  split; [vm_compute; reflexivity|]. split; [vm_compute; reflexivity|].
  split; [vm_compute; discriminate|]. eexists. eexists. split; vm_compute; reflexivity.
Qed.

(** ** C09 *)

(** With codecs that honour their contract every sequence of calls runs to its end. *)
Theorem C09_client_no_panic : forall K relaxed g ops,
  no_trailing K relaxed -> single_lines K ->
  exists c l, ran K relaxed g ops c l.
Proof. exact no_panic. Qed.
Print Assumptions C09_client_no_panic.

(** The contract is met, for all messages, by the codec of ToyCodec.v. *)
Example C09_client_contract : forall relaxed, no_trailing toy relaxed /\ single_lines toy.
Proof. intro relaxed. split; [apply toy_no_trailing|exact toy_single_lines]. Qed.

(** ** C10 *)

(** The output is the concatenation of the pieces between terminal events. The k-th piece
    is what the conversation about the k-th enqueued command prescribes; only the oldest
    unresolved command has an unfinished piece. *)
Theorem C10_client_in_order : forall K relaxed g ops c l,
  ran K relaxed g ops c l ->
  outputs l = concat (map (fun k => outputs (segment k l)) (seq 0 (S (length (terminals l))))) /\
  length (terminals l) <= length (enqueued l) /\
  (forall k h cm, nth_error (enqueued l) k = Some (h, cm) ->
     (k < length (terminals l) -> exists t, nth_error (terminals l) k = Some t /\
        conversation K h cm (outputs (segment k l)) (exchange (segment k l))
          (silent (segment k l)) t) /\
     (k = length (terminals l) ->
        conversing K h cm (outputs (segment k l)) (exchange (segment k l))
          (silent (segment k l))) /\
     (length (terminals l) < k -> segment k l = [])) /\
  (length (terminals l) = length (enqueued l) ->
     outputs (cur_seg l) = [] /\ exchange (cur_seg l) = []).
Proof. exact in_order. Qed.
Print Assumptions C10_client_in_order.

Example C10_client_example :
  let l := ex_log false ops_login in
  length (terminals l) = 2 /\ outputs (segment 0 l) = ln "A1 NOOP" /\
  outputs (segment 1 l) = ln "A2 LOGIN {5}" ++ B "alice" ++ ln " {3+}" ++ ln "bob" /\
  let l' := firstn 15 l in
  length (terminals l') = 1 /\ outputs (segment 1 l') = ln "A2 LOGIN {5}".
Proof. vm_compute. auto. Qed.

(** ** C11 *)

Theorem C11_client_sent_complete : forall K relaxed g ops c l,
  ran K relaxed g ops c l ->
  forall k h cm, nth_error (terminals l) k = Some (CeCommandSent h cm) ->
  nth_error (enqueued l) k = Some (h, cm) /\
  outputs (segment k l) = frags_bytes (enc_command K cm) /\
  silent (segment k l) = nsync (enc_command K cm).
Proof. exact sent_complete. Qed.
Print Assumptions C11_client_sent_complete.

Example C11_client_example :
  nth_error (terminals (ex_log false ops_login)) 1 = Some (CeCommandSent (hd_ 1) ex_login) /\
  length (enc_command toy ex_login) = 5.
Proof. vm_compute. auto. Qed.

(** ** C12 *)

(** If any byte after the fragments [pre] of a command was emitted, and a synchronizing
    literal follows [pre], then a continuation request was received when exactly [pre] had
    been emitted. *)
Theorem C12_client_literals : forall K relaxed g ops c l,
  ran K relaxed g ops c l ->
  forall k h cm, nth_error (enqueued l) k = Some (h, cm) -> regular cm ->
  all_agreed K cm (segment k l).
Proof. exact literals_agreed. Qed.
Print Assumptions C12_client_literals.

Example C12_client_example :
  nth_error (enqueued (ex_log false ops_login)) 1 = Some (hd_ 1, ex_login) /\ regular ex_login /\
  enc_command toy ex_login =
    [FLine (ln "A2 LOGIN {5}")] ++ FLiteral (B "alice") LSync ::
    [FLine (ln " {3+}"); FLiteral (B "bob") LNonSync; FLine crlf] /\
  length (ln "A2 LOGIN {5}") < length (outputs (segment 1 (ex_log false ops_login))).
Proof.
  split; [vm_compute; reflexivity|]. split; [eexists; reflexivity|].
  split; [vm_compute; reflexivity|]. vm_compute. repeat constructor.
Qed.

(** ** C13 *)

Theorem C13_client_rejected : forall K relaxed g ops c l,
  ran K relaxed g ops c l ->
  forall k h cm s, nth_error (terminals l) k = Some (CeCommandRejected h cm s) ->
  nth_error (enqueued l) k = Some (h, cm) /\ tagged_bad (ctag cm) s /\
  exists pre d post, enc_command K cm = pre ++ FLiteral d LSync :: post /\
    outputs (segment k l) = frags_bytes pre /\ silent (segment k l) = nsync pre.
Proof. exact rejected_stops. Qed.
Print Assumptions C13_client_rejected.

(** What happens with a response is determined by the oldest unresolved command and the
    state of its exchange; for C13: only its own tagged BAD rejects a regular command. *)
Theorem C13_client_reactions : forall K relaxed g ops c l,
  ran K relaxed g ops c l ->
  forall l1 raw r l2, l = l1 ++ ClRx (Crx raw (CvResponse r)) :: l2 ->
  match reaction (current l1) (last_exch l1) r with
  | Some e => exists l3, l2 = ClNext (IEvent e) :: l3
  | None => reports l2 = false
  end.
Proof. exact reactions. Qed.
Print Assumptions C13_client_reactions.

(** BAD for another tag and NO are passed on; the own BAD rejects; the next command is
    sent. *)
Example C13_client_example :
  let l := ex_log false ops_reject in
  ran toy false ex_gen ops_reject (ex_client false ops_reject) l /\
  nth_error (terminals l) 0 = Some (CeCommandRejected (hd_ 0) ex_login
    (StTagged (B "A2") (StatusBody SkBad None (B "literal")))) /\
  In (CeStatusReceived (StTagged (B "A1") (StatusBody SkBad None (B "other")))) (events l) /\
  In (CeStatusReceived (StTagged (B "A2") (StatusBody SkNo None (B "no")))) (events l) /\
  outputs l = ln "A2 LOGIN {5}" ++ ln "A5 NOOP".
Proof. vm_compute. intuition. Qed.

(** ** C14 *)

(** The k-th terminal event resolves the k-th enqueued command. *)
Theorem C14_client_resolved_once : forall K relaxed g ops c l,
  ran K relaxed g ops c l ->
  forall k t, nth_error (terminals l) k = Some t ->
  exists h cm, nth_error (enqueued l) k = Some (h, cm) /\ resolves h cm t.
Proof. exact resolved_once. Qed.
Print Assumptions C14_client_resolved_once.

Example C14_client_example :
  let l := ex_log false ops_idle in
  terminals l = [CeIdleDoneSent (hd_ 0);
    CeIdleRejected (hd_ 1) (StTagged (B "A6") (StatusBody SkNo None (B "later")))] /\
  enqueued l = [(hd_ 0, ex_idle); (hd_ 1, cmd "A6" "IDLE")].
Proof. vm_compute. auto. Qed.

(** ** C15 *)

Theorem C15_client_greeting_first : forall K relaxed g ops c l,
  ran K relaxed g ops c l ->
  (forall l1 b l2, l = l1 ++ ClNext (IOutput b) :: l2 -> greeted l1) /\
  (forall l1 e l2, l = l1 ++ ClNext (IEvent e) :: l2 ->
     greeted l1 \/ exists x, e = CeGreetingReceived x) /\
  (forall x1 x2 es1 es2 es3,
     events l <> es1 ++ CeGreetingReceived x1 :: es2 ++ CeGreetingReceived x2 :: es3).
Proof. exact greeting_first. Qed.
Print Assumptions C15_client_greeting_first.

(** Before the greeting [next] asks for input although a command is queued. *)
Example C15_client_example :
  exists b l1 l2, ex_log false ops_login = l1 ++ ClNext (IOutput b) :: l2 /\
    In (ClNext INeedMore) l1 /\ greetedb l1 = true.
Proof.
  exists (ln "A1 NOOP"), (firstn 10 (ex_log false ops_login)), (skipn 11 (ex_log false ops_login)).
  vm_compute. intuition.
Qed.

(** ** C16 *)

(** A finished AUTHENTICATE exchange: the command line, then for each continuation request
    answered by the application one line of data, then the status with the command's tag.
    (Where it stands while unfinished: [C10_client_in_order].) *)
Theorem C16_client_authenticate : forall K relaxed g ops c l,
  ran K relaxed g ops c l ->
  forall k t h ca, nth_error (terminals l) k = Some t ->
  nth_error (enqueued l) k = Some (h, command_of_authenticate ca) ->
  exists line xs ds lines tl s,
    t = CeAuthenticateStatusReceived h ca s /\ tagged_status (ca_tag ca) s /\
    enc_command K (command_of_authenticate ca) = [FLine line] /\
    exchange (segment k l) = XStarted h :: xs ++ tl /\
    rounds h xs ds /\ (tl = [] \/ exists q, tl = [XCont h q]) /\
    map (enc_authdata K) ds = map (fun x => [FLine x]) lines /\
    outputs (segment k l) = line ++ concat lines.
Proof. exact auth_exchange. Qed.
Print Assumptions C16_client_authenticate.

Example C16_client_example :
  let l := ex_log false ops_auth in
  ran toy false ex_gen ops_auth (ex_client false ops_auth) l /\
  terminals l = [CeAuthenticateStatusReceived (hd_ 0) ex_ca
    (StTagged (B "A3") (StatusBody SkOk None (B "done")))] /\
  enqueued l = [(hd_ 0, command_of_authenticate ex_ca)] /\
  exchange (segment 0 l) =
    [XStarted (hd_ 0); XCont (hd_ 0) (CcrBasic None (B "first"));
     XData (hd_ 0) (ADContinue (B "one")); XCont (hd_ 0) (CcrBasic None (B "second"));
     XData (hd_ 0) (ADContinue (B "two"))] /\
  outputs l = ln "A3 AUTHENTICATE X" ++ ln "one" ++ ln "two".
Proof. vm_compute. auto. Qed.

(** ** C17 *)

Theorem C17_client_idle : forall K relaxed g ops c l,
  ran K relaxed g ops c l ->
  forall k t h cm, nth_error (terminals l) k = Some t ->
  nth_error (enqueued l) k = Some (h, cm) -> cbody cm = BIdle ->
  exists line, enc_command K cm = [FLine line] /\
    ((exists q dn, t = CeIdleDoneSent h /\ enc_idledone K = [FLine dn] /\
        exchange (segment k l) = [XIdle h; XAccepted h q; XDone h] /\
        outputs (segment k l) = line ++ dn) \/
     (exists s tl, t = CeIdleRejected h s /\ tagged_status (ctag cm) s /\
        exchange (segment k l) = XIdle h :: tl /\ (tl = [] \/ exists q, tl = [XAccepted h q]) /\
        outputs (segment k l) = line)).
Proof. exact idle_exchange. Qed.
Print Assumptions C17_client_idle.

(** The running exchange of the oldest unresolved command (C16, C17). *)
Theorem C17_client_running : forall K relaxed g ops c l,
  ran K relaxed g ops c l ->
  forall h cm, current l = Some (h, cm) ->
  conversing K h cm (outputs (cur_seg l)) (exchange (cur_seg l)) (silent (cur_seg l)).
Proof. exact running. Qed.
Print Assumptions C17_client_running.

Example C17_client_example :
  let l := ex_log false ops_idle in
  ran toy false ex_gen ops_idle (ex_client false ops_idle) l /\
  exchange (segment 0 l) =
    [XIdle (hd_ 0); XAccepted (hd_ 0) (CcrBasic None (B "idling")); XDone (hd_ 0)] /\
  outputs l = ln "A4 IDLE" ++ ln "DONE" ++ ln "A6 IDLE" /\
  current (firstn 12 l) = Some (hd_ 0, ex_idle) /\
  last_exch (firstn 12 l) = Some (XAccepted (hd_ 0) (CcrBasic None (B "idling"))).
Proof. vm_compute. auto. Qed.

(** ** C18 *)

Theorem C18_client_set_auth : forall K relaxed g ops c l,
  ran K relaxed g ops c l ->
  forall l1 d r l2, l = l1 ++ ClSetAuth d r :: l2 ->
  r = match last_exch l1 with Some (XCont h _) => inl h | _ => inr d end.
Proof. exact set_auth_iff. Qed.
Print Assumptions C18_client_set_auth.

Theorem C18_client_set_done : forall K relaxed g ops c l,
  ran K relaxed g ops c l ->
  forall l1 r l2, l = l1 ++ ClSetDone r :: l2 ->
  r = match last_exch l1 with Some (XAccepted h _) => Some h | _ => None end.
Proof. exact set_done_iff. Qed.
Print Assumptions C18_client_set_done.

Theorem C18_client_refused_auth : forall K c d c' d',
  client_set_authenticate_data K c d = Val (c', inr d') -> c' = c /\ d' = d.
Proof. exact refused_auth. Qed.
Print Assumptions C18_client_refused_auth.

Theorem C18_client_refused_done : forall K c c',
  client_set_idle_done K c = Val (c', None) -> c' = c.
Proof. exact refused_done. Qed.
Print Assumptions C18_client_refused_done.

Example C18_client_example :
  filter (fun e => match e with ClSetAuth _ _ => true | _ => false end) (ex_log false ops_auth) =
    [ClSetAuth (ADContinue (B "early")) (inr (ADContinue (B "early")));
     ClSetAuth (ADContinue (B "one")) (inl (hd_ 0));
     ClSetAuth (ADContinue (B "two")) (inl (hd_ 0));
     ClSetAuth ADCancel (inr ADCancel)] /\
  filter (fun e => match e with ClSetDone _ => true | _ => false end) (ex_log false ops_idle) =
    [ClSetDone None; ClSetDone (Some (hd_ 0)); ClSetDone None].
Proof. vm_compute. auto. Qed.

(** ** C19 *)

(** The responses in events are, in order, the received ones without those that released a
    literal ([C13_client_reactions] says which these are; [C03_client_frames] that each
    other one is reported at once). *)
Theorem C19_client_delivered : forall K relaxed g ops c l,
  ran K relaxed g ops c l -> delivered l = reported_all (events l).
Proof. exact delivered_reported. Qed.
Print Assumptions C19_client_delivered.

Example C19_client_example :
  length (delivered (ex_log false ops_login)) = 2 /\
  length (delivered (ex_log false ops_reject)) = 3 /\
  silent (segment 1 (ex_log false ops_login)) = 1.
Proof. vm_compute. auto. Qed.

(** ** C20 *)

(** Whether or not a bad frame precedes the remaining input makes no difference, apart from
    the error itself, to an application that ignores errors. *)
Theorem C20_client_malformed : forall K relaxed g ops c l,
  ran K relaxed g ops c l ->
  forall app raw v rest xs ys hh,
  client_buf c = [] -> frame_verdict K relaxed (greetedb l) (Crx raw v) ->
  (v = CvMalformed \/ v = CvBareLf) ->
  concat xs = raw ++ rest -> concat ys = rest ->
  (exists h, drive K (fun h => app (no_errors h)) c xs [] h /\ no_errors h = hh) <->
  (exists h, drive K (fun h => app (no_errors h)) c ys [] h /\ no_errors h = hh).
Proof. exact malformed_dropped. Qed.
Print Assumptions C20_client_malformed.

(** Rubbish while the client waits for permission to send a literal. *)
Example C20_client_example :
  let ops := firstn 6 ops_reject in
  let c := ex_client false ops in
  ran toy false ex_gen ops c (ex_log false ops) /\ client_buf c = [] /\
  current (ex_log false ops) = Some (hd_ 0, ex_login) /\
  frame_verdict toy false (greetedb (ex_log false ops)) (Crx (ln "rubbish") CvMalformed).
Proof.
  split; [vm_compute; reflexivity|]. split; [vm_compute; reflexivity|].
  split; [vm_compute; reflexivity|]. exists []. apply scan_end.
  - exists (B "rubbish" ++ [CR]). split; [reflexivity|]. vm_compute. intuition discriminate.
  - apply v_failed; [right; exists (B "rubbish"); reflexivity|vm_compute; reflexivity].
Qed.
