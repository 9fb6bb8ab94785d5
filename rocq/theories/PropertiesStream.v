(** Properties of the stream (C31-C35, C42-C44, C47, C49). Vocabulary: SpecStream.v.

    [xrun T M fuel x acts = (x', l)]: the environment behaves as [acts] says; [l] is the log
    of everything that happened. [T] is the TLS session, [M] the state driven by the stream
    ([client_machine K], [server_machine K], or any other), [fuel] bounds the loops of
    [encrypt] and [decrypt]. *)
From Coq Require Import List NArith Bool PeanoNat.
From Coq Require String.
Import (notations) String.
From Verif Require Import Base Types Codec Handle Receive ClientSend Client ServerSend Server
  SpecClient SpecServer Stream SpecStream StreamProofs StreamThms StreamTls StreamTlsSend
  StreamMachine StreamState StreamServer StreamEvents StreamUpgrade StreamStuck StreamCipher ToyCodec ToyLaws ToyTls ClientExamples ServerExamples.
Import ListNotations.
Open Scope list_scope.
Open Scope nat_scope.

(** The client with the toy codec in a stream with the toy session. *)
Definition CM : machine := client_machine toy.
Definition TT (eof : bool) : tls := toy_tls 8 eof.
Definition ex_plain (eof : bool) : xstate (TT eof) CM :=
  @XState (TT eof) CM (stream_insecure (TT eof)) (client_new ex_gen false) FIdle.
Definition ex_tls (eof : bool) (t : toy_session) : xstate (TT eof) CM :=
  @XState (TT eof) CM (stream_tls (TT eof) t) (client_new ex_gen false) FIdle.
Definition enq (tag : String.string) (body : String.string) : act CM :=
  ACall (CaEnqueueCommand (cmd tag body) : m_op CM).
Definition rd (b : bytes) : act CM := ARead (Some b).
Definition wr (n : nat) : act CM := AWrite (Some n).
Definition plain_log (acts : list (act CM)) : list (xlog CM) :=
  snd (xrun (TT true) CM 100 (ex_plain true) acts).
Definition plain_end (acts : list (act CM)) : xstate (TT true) CM :=
  fst (xrun (TT true) CM 100 (ex_plain true) acts).
Definition tls_log (eof : bool) (t : toy_session) (acts : list (act CM)) : list (xlog CM) :=
  snd (xrun (TT eof) CM 100 (ex_tls eof t) acts).
Definition tls_end (eof : bool) (t : toy_session) (acts : list (act CM)) : xstate (TT eof) CM :=
  fst (xrun (TT eof) CM 100 (ex_tls eof t) acts).
(** The entries of a log, without the machine in their type. *)
Inductive vlog : Type :=
| VCall | VGive (b : bytes) | VNeedMore | VOutput (b : bytes) | VNext | VRead (b : bytes)
| VWrote (b : bytes) | VStart | VEvent (e : cevent) | VState | VClosed | VIo | VTls | VFlushed
| VCancel | VPanic | VHang.
Definition view (e : xlog CM) : vlog :=
  match e with
  | XCall _ _ => VCall
  | XGive b => VGive b
  | XNext MNeedMore => VNeedMore
  | XNext (MOutput b) => VOutput b
  | XNext _ => VNext
  | XRead b => VRead b
  | XWrote b => VWrote b
  | XStartNext | XStartFlush => VStart
  | XRet (RetEvent e) => VEvent e
  | XRet (RetState _) => VState
  | XRet RetClosed => VClosed
  | XRet RetIo => VIo
  | XRet RetTls => VTls
  | XRet RetFlushed => VFlushed
  | XCancel => VCancel
  | XPanic => VPanic
  | XHang => VHang
  end.
Definition is_error (e : xlog CM) : bool :=
  match e with XRet RetIo | XRet RetTls => true | _ => false end.
Lemma existsb_no_error : forall l, existsb is_error l = false -> no_error l.
Proof.
  intros l H. unfold no_error. induction l as [|e l IH]; [now split|]. cbn in H.
  apply orb_false_iff in H as [H1 H2]. apply IH in H2 as [H2 H3].
  destruct e as [| | | | | | |r| | |]; cbn; auto. destruct r; try discriminate H1; cbn; intuition discriminate.
Qed.
Definition greeted : cevent := CeGreetingReceived (Greeting GkOk None (B "hi")).
Definition rec (b : bytes) : bytes := flat_map toy_record b.

(** A future is dropped while a command is written; responses arrive meanwhile. *)
Definition ex_acts : list (act CM) :=
  [@ANext CM; rd (B "* OK "); ACancel; ANext; rd (ln "hi"); enq "A1" "NOOP"; ANext; wr 3;
   ACancel; ANext; ANext; wr 1; rd (B "* 5 EXI"); enq "A2" "NOOP"; wr 4;
   rd (B "STS" ++ crlf); ANext].

(** ** C31 *)

(** No byte is lost, duplicated or reordered, in both directions. *)
Theorem C31_conserved : forall T M fuel m acts x l,
  xrun T M fuel (XState (stream_insecure T) m FIdle) acts = (x, l) ->
  xwritten l ++ x_wbuf (x_s x) = xoutputs l /\ xread l = xgiven l ++ x_rbuf (x_s x).
Proof. exact plain_conserved. Qed.
Print Assumptions C31_conserved.

(** Whenever the state is asked to progress, it has been given every byte read so far. *)
Theorem C31_given_before_next : forall T M fuel m acts x l,
  xrun T M fuel (XState (stream_insecure T) m FIdle) acts = (x, l) ->
  forall l1 r l2, l = l1 ++ XNext r :: l2 -> xread l1 = xgiven l1.
Proof. exact plain_fresh. Qed.
Print Assumptions C31_given_before_next.

Example C31_example :
  let l := plain_log ex_acts in
  xread l = ln "* OK hi" ++ ln "* 5 EXISTS" /\ xgiven l = xread l /\
  xoutputs l = ln "A1 NOOP" /\ xwritten l = B "A1 NOOP" ++ [CR] /\
  x_wbuf (x_s (plain_end ex_acts)) = [LF] /\ In VCancel (map view l) /\ length (xnexts l) = 10.
Proof. vm_compute. intuition. Qed.

(** A client or a server in a stream behaves as it does alone: its state and all results of
    its functions are those of a run of API calls, to which C01-C27 apply. *)
Theorem C31_client_in_stream : forall K relaxed g T fuel s f acts x l,
  xrun T (client_machine K) fuel (@XState T (client_machine K) s (client_new g relaxed) f) acts
    = (x, l) ->
  exists lc, ran K relaxed g (map client_cop (calls l)) (x_m x) lc /\
    flat_map client_view lc = call_entries l.
Proof. exact client_in_stream. Qed.
Print Assumptions C31_client_in_stream.

Theorem C31_server_in_stream : forall K g o gr T fuel s f acts x l,
  xrun T (server_machine K) fuel (@XState T (server_machine K) s (server_new g o gr) f) acts
    = (x, l) ->
  exists ls, sran K g o gr (map server_sop (calls l)) (x_m x) ls /\
    flat_map server_view ls = call_entries l.
Proof. exact server_in_stream. Qed.
Print Assumptions C31_server_in_stream.

Example C31_in_stream_example :
  let l := plain_log ex_acts in
  map client_cop (calls l) =
    [CopNext; CopEnqueueInput (B "* OK "); CopNext; CopNext; CopEnqueueInput (ln "hi"); CopNext;
     CopEnqueueCommand (cmd "A1" "NOOP"); CopNext; CopNext; CopNext;
     CopEnqueueInput (B "* 5 EXI"); CopNext; CopEnqueueInput (B "STS" ++ crlf); CopNext; CopNext] /\
  length (call_entries l) = 15.
Proof. vm_compute. auto. Qed.

(** The stream does not panic and does not hang, if the codec is well behaved. *)
Theorem C31_client_no_panic : forall K relaxed g, no_trailing K relaxed -> single_lines K ->
  forall T fuel acts x l,
  xrun T (client_machine K) fuel
    (@XState T (client_machine K) (stream_insecure T) (client_new g relaxed) FIdle) acts = (x, l) ->
  ~ In XPanic l /\ ~ In XHang l /\ x_f x <> FDead.
Proof.
  intros K relaxed g H1 H2 T fuel acts x l E.
  assert (P : ~ In XPanic l).
  { eapply stream_no_panic; [|exact E]. intro cs. now apply client_calls_live. }
  apply plain_alive in E as [E1 E2]. split; [exact P|]. split; [exact E1|]. intro F. now apply P, E2.
Qed.
Print Assumptions C31_client_no_panic.

Theorem C31_server_no_panic : forall K g o gr, sno_trailing K o ->
  forall T fuel acts x l,
  xrun T (server_machine K) fuel
    (@XState T (server_machine K) (stream_insecure T) (server_new g o gr) FIdle) acts = (x, l) ->
  ~ In XPanic l /\ ~ In XHang l /\ x_f x <> FDead.
Proof.
  intros K g o gr H1 T fuel acts x l E.
  assert (P : ~ In XPanic l).
  { eapply stream_no_panic; [|exact E]. intro cs. now apply server_calls_live. }
  apply plain_alive in E as [E1 E2]. split; [exact P|]. split; [exact E1|]. intro F. now apply P, E2.
Qed.
Print Assumptions C31_server_no_panic.

Example C31_no_panic_example :
  no_trailing toy false /\ single_lines toy /\ (forall o, sno_trailing toy o).
Proof. split; [apply toy_no_trailing|]. split; [apply toy_single_lines|apply toy_sno_trailing]. Qed.

(** ** C32 *)

(** The strict claim is false: a command is reported as sent while a part of it is still
    in the write buffer. *)
Definition ex_race : list (act CM) :=
  [@ANext CM; rd (ln "* OK hi"); enq "A1" "NOOP"; ANext; wr 3; rd (B "* 5 EXI")].
Theorem C32_sent_before_written_refuted :
  let l := plain_log ex_race in
  (exists l1, map view l = l1 ++ [VEvent (CeCommandSent (hd_ 0) (cmd "A1" "NOOP"))]) /\
  xoutputs l = ln "A1 NOOP" /\ xwritten l = B "A1 ".
Proof.
  split; [|vm_compute; auto]. exists (firstn 13 (map view (plain_log ex_race))). vm_compute. reflexivity.
Qed.
Print Assumptions C32_sent_before_written_refuted.

(** After a successful flush everything is written. *)
Theorem C32_flushed : forall T M fuel m acts x l,
  xrun T M fuel (XState (stream_insecure T) m FIdle) acts = (x, l) ->
  forall l1 l2, l = l1 ++ XRet RetFlushed :: l2 -> xwritten l1 = xoutputs l1.
Proof. exact plain_flushed. Qed.
Print Assumptions C32_flushed.

(** Also when [next] waits only for input. *)
Theorem C32_waiting : forall T M fuel m acts x l,
  xrun T M fuel (XState (stream_insecure T) m FIdle) acts = (x, l) ->
  x_f x = FRead -> xwritten l = xoutputs l.
Proof. exact plain_waiting. Qed.
Print Assumptions C32_waiting.

Example C32_example :
  let acts := ex_race ++ [AFlush; wr 2; wr 4; AFlushed true; ANext] in
  let l := plain_log acts in
  (exists l1, map view l = l1 ++ VFlushed :: [VStart; VNeedMore]) /\
  xwritten l = ln "A1 NOOP" /\ x_f (plain_end acts) = FRead.
Proof.
  split; [|vm_compute; auto].
  exists (firstn 17 (map view (plain_log (ex_race ++ [AFlush; wr 2; wr 4; AFlushed true; ANext])))).
  vm_compute. reflexivity.
Qed.

(** ** C33 *)

(** End of file and a socket that accepts nothing end the future with [Closed]... *)
Theorem C33_closed_reported : forall T M fuel x0 acts x l,
  xrun T M fuel x0 acts = (x, l) ->
  forall l1 e l2, l = l1 ++ e :: l2 -> e = XRead [] \/ e = XWrote [] ->
  exists l3, l2 = XRet RetClosed :: l3.
Proof. exact closed_reported. Qed.
Print Assumptions C33_closed_reported.

(** ... and nothing else does. *)
Theorem C33_closed_cause : forall T M fuel x0 acts x l,
  xrun T M fuel x0 acts = (x, l) ->
  forall l1 l2, l = l1 ++ XRet RetClosed :: l2 ->
  exists l0 e, l1 = l0 ++ [e] /\ (e = XRead [] \/ e = XWrote []).
Proof. exact closed_cause. Qed.
Print Assumptions C33_closed_cause.

(** Between two calls of [State::next] by the same future a byte was read, or all output
    was written. *)
Theorem C33_no_spinning : forall T M fuel m acts x l,
  xrun T M fuel (XState (stream_insecure T) m FIdle) acts = (x, l) ->
  forall l1 r1 lm r2 l2, l = l1 ++ XNext r1 :: lm ++ XNext r2 :: l2 -> xnexts lm = [] ->
  (exists e, In e lm /\ is_boundary e = true) \/
  (exists b, b <> [] /\ In (XRead b) lm) \/
  (exists la b lb, lm = la ++ XWrote b :: lb /\ b <> [] /\
     xwritten (l1 ++ XNext r1 :: la ++ [XWrote b]) = xoutputs (l1 ++ [XNext r1])).
Proof. exact plain_no_spin. Qed.
Print Assumptions C33_no_spinning.

Example C33_example :
  exists l1 l2 l3, map view (plain_log ([@ANext CM; rd (ln "* OK hi"); enq "A1" "NOOP"; ANext; wr 4;
      wr 5; ANext; rd []; enq "A2" "NOOP"; ANext; wr 0])) =
    l1 ++ [VWrote (B "A1 N"); VWrote (B "OOP" ++ crlf); VNext] ++ l2 ++ [VRead []; VClosed] ++ l3 ++
      [VWrote []; VClosed].
Proof.
  set (l := map view _). exists (firstn 9 l), (firstn 3 (skipn 12 l)), (firstn 3 (skipn 17 l)).
  vm_compute. reflexivity.
Qed.

(** ** C34 *)

(** The claim is false: once the peer has closed the session, reading plaintext yields no
    bytes again and again, and [decrypt] never returns, whatever the bound. *)
Theorem C34_decrypt_hangs_refuted : forall T t, t_read T t = (t, TrData []) ->
  forall F p, snd (decrypt_read T F t p) = LpFuel.
Proof. exact decrypt_read_hangs. Qed.
Print Assumptions C34_decrypt_hangs_refuted.

Definition ex_close : list (act CM) := [@ANext CM; rd (rec (ln "* OK hi") ++ [x15]); ANext].
Example C34_hangs_example :
  In VHang (map view (tls_log true toy_session_new ex_close)) /\
  x_f (tls_end true toy_session_new ex_close) = FDead /\
  ~ In (VEvent greeted) (map view (tls_log true toy_session_new ex_close)).
Proof. vm_compute. intuition discriminate. Qed.

(** If reading blocks instead, every run of the stream returns: there is a bound beyond
    which the result does not change, and nothing hangs. *)
Theorem C34_returns : forall T M mu nu, tls_finite T mu nu ->
  forall acts x, exists F0 r, (forall F, F0 <= F -> xrun T M F x acts = r) /\ ~ In XHang (snd r).
Proof. exact (fun T M mu nu H => run_returns T M mu nu H). Qed.
Print Assumptions C34_returns.

Example C34_returns_example :
  tls_finite (TT false) (fun t => length (y_pend t)) (fun t => length (y_queue t)) /\
  In (VEvent greeted) (map view (tls_log false toy_session_new ex_close)).
Proof. split; [apply toy_tls_finite|]. vm_compute. intuition. Qed.

(** ** C35 *)

(** Whenever the state is asked to progress, it has been given exactly the plaintext of all
    bytes read so far. [dec t0] is the plaintext that the session yields. *)
Theorem C35_received : forall T M fuel dec, tls_receives T dec ->
  forall t0 m acts x l, t_wants_read T t0 = true /\ dec t0 [] = [] ->
  xrun T M fuel (XState (stream_tls T t0) m FIdle) acts = (x, l) ->
  forall l1 r l2, l = l1 ++ XNext r :: l2 -> no_error l1 -> xgiven l1 = dec t0 (xread l1).
Proof. exact (fun T M fuel dec L t0 => tls_fresh T M fuel dec L t0). Qed.
Print Assumptions C35_received.

(** What was written, followed by what will be written, decrypts to the output of the
    state: no record is left behind in the session. *)
Theorem C35_sent : forall T M fuel peer R, tls_sends T peer R ->
  forall t0 m acts x l, R t0 [] [] -> peer [] = [] ->
  xrun T M fuel (XState (stream_tls T t0) m FIdle) acts = (x, l) ->
  no_error l -> x_f x <> FDead -> peer (xwritten l ++ x_wbuf (x_s x)) = xoutputs l.
Proof. exact (fun T M fuel peer R L => tls_sent T M fuel peer R L). Qed.
Print Assumptions C35_sent.

(** After a successful flush the peer can read all of it. *)
Theorem C35_flushed : forall T M fuel peer R, tls_sends T peer R ->
  forall t0 m acts x l, R t0 [] [] -> peer [] = [] ->
  xrun T M fuel (XState (stream_tls T t0) m FIdle) acts = (x, l) ->
  forall l1 l2, l = l1 ++ XRet RetFlushed :: l2 -> no_error l1 -> peer (xwritten l1) = xoutputs l1.
Proof. exact (fun T M fuel peer R L => tls_flushed T M fuel peer R L). Qed.
Print Assumptions C35_flushed.

(** Whenever a future waits, the session has no record left to emit, not even one that it
    made on its own. *)
Theorem C35_records_emitted : forall T M fuel s m acts x l,
  xrun T M fuel (XState s m FIdle) acts = (x, l) ->
  pending (x_f x) = true -> forall t, x_tls (x_s x) = Some t -> t_wants_write T t = false.
Proof. exact records_emitted. Qed.
Print Assumptions C35_records_emitted.

Example C35_records_example :
  let t0 := ToySession [] false false false (B "tick") in
  let x := tls_end true t0 [@ANext CM] in
  t_wants_write (TT true) t0 = true /\ pending (x_f x) = true /\
  match x_tls (x_s x) with Some t => t_wants_write (TT true) t = false | None => False end /\
  x_wbuf (x_s x) = rec (B "tick").
Proof. vm_compute. auto. Qed.

Definition ex_secure : list (act CM) :=
  [@ANext CM; rd (firstn 11 (rec (ln "* OK hi"))); rd (skipn 11 (rec (ln "* OK hi"))); enq "A1" "N";
   ANext; wr 5; rd (rec (B "* 5 EXI") ++ [x17]); AFlush; wr 7; AFlushed true; ANext].
Example C35_example :
  let l := tls_log true toy_session_new ex_secure in
  tls_receives (TT true) toy_dec /\ tls_sends (TT true) toy_peer toy_rel /\
  toy_rel toy_session_new [] [] /\
  (t_wants_read (TT true) toy_session_new = true /\ toy_dec toy_session_new [] = []) /\
  no_error l /\ xgiven l = ln "* OK hi" ++ B "* 5 EXI" /\ xoutputs l = ln "A1 N" /\
  xwritten l = rec (ln "A1 N") /\ In VFlushed (map view l).
Proof.
  split; [apply toy_tls_receives|]. split; [apply toy_tls_sends|].
  split; [now exists []|]. split; [split; reflexivity|].
  split; [apply existsb_no_error; vm_compute; reflexivity|]. vm_compute. intuition.
Qed.

(** ** C42 *)

(** An output that the session does not accept at once is cut: [next] returns an error, and
    the rest of the output is gone. *)
Theorem C42_overflow : forall T fuel t wb b t1 n t2,
  t_write T t b = Some (t1, n) -> 0 < n < length b ->
  t_write T t1 (skipn n b) = Some (t2, 0) ->
  encrypt T (S (S fuel)) t wb b = (t2, wb, LpIo).
Proof. exact encrypt_overflow. Qed.
Print Assumptions C42_overflow.

(** The client does not notice: the next event reports the command as sent, and flushing
    succeeds, although the peer gets only the beginning of the command. *)
Definition ex_overflow : list (act CM) :=
  [@ANext CM; rd (rec (ln "* OK hi")); enq "A1" "NOOP"; ANext; ANext; AFlush; wr 16; AFlushed true].
Theorem C42_cut_output_refuted :
  let l := tls_log false toy_session_new ex_overflow in
  skipn 7 (map view l) =
    [VStart; VOutput (ln "A1 NOOP"); VIo;
     VStart; VNext; VEvent (CeCommandSent (hd_ 0) (cmd "A1" "NOOP"));
     VStart; VWrote (rec (B "A1 NOOP" ++ [CR])); VFlushed] /\
  xoutputs l = ln "A1 NOOP" /\ toy_peer (xwritten l) = B "A1 NOOP" ++ [CR].
Proof. vm_compute. auto. Qed.
Print Assumptions C42_cut_output_refuted.

(** ** C43 *)

(** If the session holds unread plaintext when the handshake is over, it does not ask for
    input; then no byte ever reaches the state, whatever arrives. *)
Theorem C43_deaf_refuted : forall T M fuel dec, tls_receives T dec ->
  forall t0 m acts x l, t_wants_read T t0 = false ->
  xrun T M fuel (XState (stream_tls T t0) m FIdle) acts = (x, l) -> xgiven l = [].
Proof. exact (fun T M fuel dec L => deaf_forever T M fuel dec L). Qed.
Print Assumptions C43_deaf_refuted.

(** The greeting came together with the end of the handshake. *)
Example C43_example :
  let t0 := ToySession (ln "* OK hi") false false false [] in
  let acts := [@ANext CM; rd (rec (ln "* 5 EXISTS")); rd (rec (ln "* 6 EXISTS"))] in
  t_wants_read (TT true) t0 = false /\ toy_dec t0 [] = ln "* OK hi" /\
  xread (tls_log true t0 acts) = rec (ln "* 5 EXISTS" ++ ln "* 6 EXISTS") /\
  map view (tls_log true t0 acts) =
    [VStart; VNeedMore; VRead (rec (ln "* 5 EXISTS")); VNeedMore; VRead (rec (ln "* 6 EXISTS"));
     VNeedMore].
Proof. vm_compute. auto. Qed.

(** ** C44 *)

(** Taking the socket out of a stream without TLS ([From<Stream> for TcpStream]) drops the
    buffers; no byte that was read is among them... *)
Theorem C44_read_buffer_empty : forall T M fuel m acts x l,
  xrun T M fuel (XState (stream_insecure T) m FIdle) acts = (x, l) ->
  x_f x <> FDead -> x_rbuf (x_s x) = [] /\ xread l = xgiven l.
Proof. exact plain_read_buffer. Qed.
Print Assumptions C44_read_buffer_empty.

(** ... and right after a flush no byte that must be written. *)
Theorem C44_write_buffer_empty : forall T M fuel m acts ok x l l1,
  xrun T M fuel (XState (stream_insecure T) m FIdle) (acts ++ [AFlushed ok]) = (x, l) ->
  l = l1 ++ [XRet RetFlushed] -> x_wbuf (x_s x) = [].
Proof. exact plain_write_buffer. Qed.
Print Assumptions C44_write_buffer_empty.

(** Without the flush bytes are lost. *)
Example C44_example :
  x_wbuf (x_s (plain_end ex_race)) = ln "NOOP" /\ x_f (plain_end ex_race) = FIdle /\
  x_wbuf (x_s (plain_end (ex_race ++ [AFlush; wr 6; AFlushed true]))) = [].
Proof. vm_compute. auto. Qed.

(** ** C47 *)

(** Every event and every error of the state is returned to the application: once, in order,
    and before anything else happens, even if futures are dropped. *)
Theorem C47_returned : forall T M fuel x0 acts x l, xrun T M fuel x0 acts = (x, l) ->
  ret_outcomes l = next_outcomes l.
Proof. exact outcomes_returned. Qed.
Print Assumptions C47_returned.

Theorem C47_at_once : forall T M fuel x0 acts x l, xrun T M fuel x0 acts = (x, l) ->
  forall l1 r l2, l = l1 ++ XNext r :: l2 ->
  match r with
  | MEvent e => exists l3, l2 = XRet (RetEvent e) :: l3
  | MError e => exists l3, l2 = XRet (RetState e) :: l3
  | _ => True
  end.
Proof. exact returned_at_once. Qed.
Print Assumptions C47_at_once.

Example C47_example :
  ret_outcomes (plain_log (ex_acts ++ [rd (ln "rubbish")])) =
    [inl greeted; inl (CeCommandSent (hd_ 0) (cmd "A1" "NOOP")); inl (CeDataReceived (DOther (B "5 EXISTS")));
     inr (CerrMalformedMessage (ln "rubbish"))].
Proof. vm_compute. reflexivity. Qed.

(** ** C49 *)

(** A server writes its greeting, then the given responses in order, with its own responses
    to literals in between. When it waits for input it has written everything, or the last
    thing written is a response of its own. *)
Theorem C49_writes : forall K o gr g T fuel acts x l,
  xrun T (server_machine K) fuel
    (@XState T (server_machine K) (stream_insecure T) (server_new g o gr) FIdle) acts = (x, l) ->
  exists ys, merged o (given l) ys /\
    (exists rest, xwritten l ++ rest = greeting_bytes K gr ++ responses_bytes K ys) /\
    (greeting_bytes K gr <> [] -> (forall r, frags_bytes (enc_response K r) <> []) -> x_f x = FRead ->
     xwritten l = greeting_bytes K gr ++ responses_bytes K ys \/
     exists ys1 r ys2, ys = ys1 ++ r :: ys2 /\ own_response o r /\
       xwritten l = greeting_bytes K gr ++ responses_bytes K (ys1 ++ [r])).
Proof. exact stream_server_writes. Qed.
Print Assumptions C49_writes.

(** The exception is real: a response given by the application stays unsent while the stream
    waits for input, until input arrives or the future is dropped. The client may be waiting
    for this response. *)
Definition SM : machine := server_machine toy.
Definition sx_plain : xstate (TT true) SM :=
  @XState (TT true) SM (stream_insecure (TT true)) (server_new ex_gen ex_opts ex_greeting) FIdle.
Definition wr_all : list (act SM) := repeat (@AWrite SM (Some 1)) 40.
Definition give (r : response) : act SM := ACall (SaEnqueue r : m_op SM).
Definition ex_stall : list (act SM) :=
  @ANext SM :: wr_all ++ [ANext; ARead (Some (ln "A1 X {20}")); give (ex_ok "A0"); ANext] ++ wr_all.
Definition sx_run (acts : list (act SM)) := xrun (TT true) SM 100 sx_plain acts.
Theorem C49_stall_refuted :
  given (snd (sx_run ex_stall)) = [ex_ok "A0"] /\
  xwritten (snd (sx_run ex_stall)) = ln "* OK hello" ++ ln "A1 BAD too long" /\
  x_f (fst (sx_run ex_stall)) = FRead /\
  (forall a, (forall r, a <> ARead r) -> a <> ACancel ->
   xstep (TT true) SM 100 (fst (sx_run ex_stall)) a = (fst (sx_run ex_stall), [])) /\
  xwritten (snd (sx_run (ex_stall ++ ACancel :: ANext :: wr_all))) =
    ln "* OK hello" ++ ln "A1 BAD too long" ++ ln "A0 OK done".
Proof.
  split; [vm_compute; reflexivity|]. split; [vm_compute; reflexivity|].
  assert (F : x_f (fst (sx_run ex_stall)) = FRead) by (vm_compute; reflexivity).
  split; [exact F|]. split; [|vm_compute; reflexivity].
  intros a H1 H2. destruct a; cbn [xstep]; rewrite ?F; try reflexivity; try congruence.
Qed.
Print Assumptions C49_stall_refuted.

(** The hypotheses on the codec can be met, and usually everything is written. *)
Definition ex_served : list (act SM) :=
  @ANext SM :: wr_all ++ [ANext; ARead (Some (ln "A1 X {2}"))] ++ wr_all ++
  [ARead (Some (ln "ab")); give (ex_ok "A1"); give (ex_ok "A2"); ANext] ++ wr_all ++ [ANext] ++ wr_all ++ [ANext].
Example C49_example :
  greeting_bytes toy ex_greeting <> [] /\ (forall r, frags_bytes (enc_response toy r) <> []) /\
  given (snd (sx_run ex_served)) = [ex_ok "A1"; ex_ok "A2"] /\
  x_f (fst (sx_run ex_served)) = FRead /\
  xwritten (snd (sx_run ex_served)) =
    ln "* OK hello" ++ ln "+ go on" ++ ln "A1 OK done" ++ ln "A2 OK done".
Proof.
  split; [discriminate|]. split; [apply toy_nonempty|]. vm_compute. auto.
Qed.

(** ** C70 *)

(** Between the session and the socket no byte is lost, duplicated or reordered, whatever the
    session does, and whatever fails or is dropped: what the session took, followed by what is
    buffered, is what was read; and what was written, followed by what is buffered, is what the
    session emitted. [recorded T] only remembers these bytes; the run is the same. *)
Theorem C70_ciphertext : forall T M fuel t0 m acts x l,
  xrun T M fuel (XState (stream_tls T t0) m FIdle) acts = (x, l) ->
  exists t taken emitted,
    xrun (recorded T) M fuel (XState (stream_tls (recorded T) (t0, ([], []))) m FIdle) acts =
      (XState (@StreamSt (recorded T) (Some (t, (taken, emitted))) (x_rbuf (x_s x)) (x_wbuf (x_s x)))
         (x_m x) (x_f x), l) /\
    x_tls (x_s x) = Some t /\
    taken ++ x_rbuf (x_s x) = xread l /\ emitted = xwritten l ++ x_wbuf (x_s x).
Proof. exact ciphertext. Qed.
Print Assumptions C70_ciphertext.

(** A command is cut by the limit of the session, a record is corrupt, and more follows. *)
Definition ex_failures : list (act CM) :=
  [@ANext CM; rd (rec (ln "* OK hi")); enq "A1" "NOOP"; ANext; ANext; ANext; wr 5;
   rd (rec (B "ab") ++ [x00; x17; x63; x17; x64]); ANext; wr 11].
Example C70_example :
  let x := tls_end false toy_session_new ex_failures in
  let l := tls_log false toy_session_new ex_failures in
  filter (fun e => match e with VEvent _ | VIo | VTls => true | _ => false end) (map view l) =
    [VEvent greeted; VIo; VEvent (CeCommandSent (hd_ 0) (cmd "A1" "NOOP")); VTls] /\
  x_rbuf (x_s x) = [x63; x17; x64] /\ xwritten l ++ x_wbuf (x_s x) = rec (B "A1 NOOP" ++ [CR]).
Proof. vm_compute. auto. Qed.

(** But plaintext that the session yielded is lost if the rest of the same read is not accepted:
    the state does not get it. *)
Theorem C70_lost : forall T M fuel t rb wb m t1 n t2 t3 b t4 t5 k,
  t_wants_read T t = true -> t_read_tls T t rb = Some (t1, n) -> t_process T t1 = Some t2 ->
  t_read T t2 = (t3, TrData b) -> t_read T t3 = (t4, TrWouldBlock) ->
  t_wants_read T t4 = true -> skipn n rb <> [] ->
  t_read_tls T t4 (skipn n rb) = Some (t5, k) -> t_process T t5 = None ->
  sync T M (S (S fuel)) (StreamSt (Some t) rb wb) m =
    (XState (StreamSt (Some t5) (skipn k (skipn n rb)) wb) m FIdle, [XRet RetTls]).
Proof.
  intros T M fuel t rb wb m t1 n t2 t3 b t4 t5 k H1 H2 H3 H4 H5 H6 H7 H8 H9.
  assert (Hr : rb <> []) by (intros ->; now rewrite skipn_nil in H7).
  unfold sync, sync_input, decrypt. cbn [x_tls x_rbuf decrypt_loop]. rewrite H1.
  destruct rb as [|c rb]; [now contradiction Hr|]. cbn [negb andb]. rewrite H2, H3.
  cbn [decrypt_read]. rewrite H4, H5. cbn [decrypt_loop]. rewrite H6.
  destruct (skipn n (c :: rb)) as [|d rb'] eqn:E; [now contradiction H7|]. cbn [negb andb].
  now rewrite H8, H9.
Qed.
Print Assumptions C70_lost.

(** The session yields "a", and then gets a corrupt record. *)
Example C70_lost_example :
  let rb := [x17; x61; x17; x62; x00] in
  let t3 := ToySession [] true false false [] in
  let t5 := ToySession [x62] false false true [] in
  t_read_tls (TT true) toy_session_new rb = Some (ToySession [x61] true false false [], 3) /\
  t_read (TT true) (ToySession [x61] true false false []) = (t3, TrData [x61]) /\
  t_read (TT true) t3 = (t3, TrWouldBlock) /\ t_wants_read (TT true) t3 = true /\
  t_read_tls (TT true) t3 (skipn 3 rb) = Some (t5, 2) /\ t_process (TT true) t5 = None /\
  map view (tls_log true toy_session_new [@ANext CM; rd rb]) = [VStart; VNeedMore; VRead rb; VTls].
Proof. vm_compute. repeat split. Qed.

(** The greeting and a corrupt record: whether the greeting is reported depends on how the
    bytes are read. *)
Theorem C70_plaintext_delivered_refuted :
  let together := tls_log true toy_session_new [@ANext CM; rd (rec (ln "* OK hi") ++ [x00])] in
  let apart := tls_log true toy_session_new
    [@ANext CM; rd (rec (ln "* OK hi")); ANext; rd [x00]] in
  let g := rec (ln "* OK hi") in
  map view together = [VStart; VNeedMore; VRead (g ++ [x00]); VTls] /\
  map view apart = [VStart; VNeedMore; VRead g; VGive (ln "* OK hi"); VNext; VEvent greeted;
    VStart; VNeedMore; VRead [x00]; VTls].
Proof. vm_compute. auto. Qed.
Print Assumptions C70_plaintext_delivered_refuted.
