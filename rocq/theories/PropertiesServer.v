(** Properties of the server (C01-C09, C20-C25). Vocabulary: SpecServer.v, SpecFraming.v,
    SpecDrive.v. [sran K g o gr ops s l]: the API calls [ops] on a new server with options
    [o] and greeting [gr] end in state [s] with the log [l] of all calls and results. *)
From Coq Require Import List NArith Bool PeanoNat.
From Coq Require String.
Import (notations) String.
From Verif Require Import Base Types Codec Handle Receive ServerSend Server SpecFraming
  SpecClient SpecServer SpecDrive ToyCodec ToyLaws ServerThms ServerRefute ClientExamples
  ServerExamples.
Import ListNotations.
Open Scope list_scope.
Open Scope nat_scope.

(** ** C01 *)

(** From every reachable state without unfinished internal responses, with every
    application that makes its calls only when no internal response can be waiting: the
    histories that can be reached do not depend on how the remaining input is cut. *)
Theorem C01_server_chunking : forall K g o gr ops s l,
  sran K g o gr ops s l ->
  forall app xs ys h, polite app -> settled l = true -> no_internal o gr l ->
  concat xs = concat ys ->
  (sdrive K app s xs [] h <-> sdrive K app s ys [] h).
Proof. exact s_chunking. Qed.
Print Assumptions C01_server_chunking.

(** Without the restriction on the application it is false. *)
Theorem C01_server_refuted :
  exists K g o gr app xs ys h, concat xs = concat ys /\
    sdrive K app (server_new g o gr) xs [] h /\ ~ sdrive K app (server_new g o gr) ys [] h.
Proof. exact chunking_refuted. Qed.
Print Assumptions C01_server_refuted.

(** An application that answers every command. *)
Definition ex_sapp (h : list slog) : option sop :=
  match rev h with
  | SlNext (IEvent (SeCommandReceived c)) :: _ =>
      Some (SopEnqueue (RStatus (StTagged (ctag c) (StatusBody SkOk None (B "done")))))
  | _ => None
  end.
Ltac sdrive_step :=
  first
  [ eapply sd_feed; [vm_compute; reflexivity|vm_compute; reflexivity|vm_compute; reflexivity|]
  | eapply sd_next; [vm_compute; reflexivity|vm_compute; reflexivity|discriminate|discriminate|]
  | eapply sd_call; [vm_compute; reflexivity|exact I|vm_compute; reflexivity|] ].

Lemma ex_sapp_polite : polite ex_sapp.
Proof.
  intros h p H. unfold ex_sapp in H. destruct (rev h) as [|e t] eqn:E; [discriminate|].
  assert (h = rev t ++ [e]) as -> by (now rewrite <- (rev_involutive h), E).
  destruct e as [| | | | | | |[[]| | | | | |]|]; try discriminate.
  unfold settled. now rewrite ServerDet.last_result_app.
Qed.

Example C01_server_chunking_example :
  let s := server_new ex_gen ex_opts ex_greeting in
  polite ex_sapp /\ settled [] = true /\ no_internal ex_opts ex_greeting [] /\
  exists h, sdrive toy ex_sapp s [B "A2 LOGIN {5"; B "}" ++ crlf; B "al"; B "ice" ++ crlf] [] h /\
    soutputs h = ln "* OK hello" ++ ln "+ go on" ++ ln "A2 OK done" /\
    sdrive toy ex_sapp s [ln "A2 LOGIN {5}" ++ ln "alice"] [] h.
Proof.
  split; [exact ex_sapp_polite|]. split; [reflexivity|]. split.
  { intros m [<-|[]]. discriminate. }
  eexists. split; [|split].
  - do 10 sdrive_step. apply sd_stop.
  - vm_compute. reflexivity.
  - do 7 sdrive_step. apply sd_stop.
Qed.

(** ** C02 *)

Theorem C02_server_partition : forall K g o gr ops s l,
  sran K g o gr ops s l ->
  sinputs l = staken_bytes l ++ server_buf s.
Proof. exact s_partition. Qed.
Print Assumptions C02_server_partition.

Example C02_server_partition_example :
  sran toy ex_gen ex_opts ex_greeting sops_login
    (sx_server ex_opts sops_login) (sx_log ex_opts sops_login) /\
  length (staken (sx_log ex_opts sops_login)) = 3 /\
  server_buf (sx_server ex_opts sops_login) = B "A4 NO".
Proof. vm_compute. auto. Qed.

(** ** C03 *)

(** Every frame taken from the input is at the beginning of the unread input, has the
    verdict of the codec for the kind of message expected at that time, and the log
    continues with exactly the corresponding report. *)
Theorem C03_server_frames : forall K g o gr ops s l,
  sran K g o gr ops s l ->
  forall l1 raw v l2, l = l1 ++ SlRx (SrxMsg raw v) :: l2 ->
  sframe_limited K o (smode l1) raw (slits l1) v /\
  (exists rest, sunread l1 = raw ++ rest) /\
  exists l3, l2 = SlNext (sresult raw v) :: l3.
Proof. exact s_frames. Qed.
Print Assumptions C03_server_frames.

(** Nothing is reported that was not received. *)
Theorem C03_server_reports : forall K g o gr ops s l,
  sran K g o gr ops s l ->
  forall l1 r l2, l = l1 ++ SlNext r :: l2 -> is_report r = true ->
  exists l0 raw v, l1 = l0 ++ [SlRx (SrxMsg raw v)] /\ r = sresult raw v.
Proof. exact s_reports. Qed.
Print Assumptions C03_server_reports.

(** A command with two literals, the first containing line ends. *)
Example C03_server_example :
  let l := sx_log ex_opts sops_login in
  let raw := ln "A2 LOGIN {5}" ++ [LF; CR; LF] ++ B "ce" ++ ln " {3+}" ++ ln "bob" in
  let p := ln "LOGIN {5}" ++ [LF; CR; LF] ++ B "ce" ++ ln " {3+}" ++ B "bob" in
  exists l1 l2, l = l1 ++ SlRx (SrxMsg raw (SvCommand (Command (B "A2") (BOther p)))) :: l2 /\
    slits l1 = [CmdLit (B "A2") 5 LSync; CmdLit (B "A2") 3 LNonSync] /\ smode l1 = ExCommand.
Proof.
  exists (firstn 12 (sx_log ex_opts sops_login)), (skipn 13 (sx_log ex_opts sops_login)).
  vm_compute. auto.
Qed.

(** ** C04 *)

Theorem C04_server_line_ends : forall K g o gr ops s l,
  sran K g o gr ops s l ->
  forall raw v, In (raw, v) (staken l) -> sline_end_ok o raw v.
Proof. exact s_line_ends. Qed.
Print Assumptions C04_server_line_ends.

Theorem C04_server_relaxed : forall K g o gr ops s l,
  sran K g o gr ops s l -> so_crlf_relaxed o = true ->
  forall d, ~ In (SlNext (IError (SerrExpectedCrlfGotLf d))) l.
Proof. exact s_relaxed_no_error. Qed.
Print Assumptions C04_server_relaxed.

Example C04_server_example :
  In (B "A3 NOOP" ++ [LF], SvBareLf) (staken (sx_log ex_opts sops_login)) /\
  sran toy ex_gen ex_opts_relaxed ex_greeting sops_login
    (sx_server ex_opts_relaxed sops_login) (sx_log ex_opts_relaxed sops_login) /\
  In (B "A3 NOOP" ++ [LF], SvCommand (Command (B "A3") (BOther (B "NOOP"))))
    (staken (sx_log ex_opts_relaxed sops_login)).
Proof. vm_compute. intuition. Qed.

(** ** C05 *)

Theorem C05_server_size : forall K g o gr ops s l,
  sran K g o gr ops s l ->
  forall raw v, In (raw, v) (staken l) -> (N.of_nat (length raw) <= so_max_command_size o)%N.
Proof. exact s_size. Qed.
Print Assumptions C05_server_size.

(** A frame is "too long" exactly if the allowed number of unread bytes contains no
    complete message; then exactly these bytes are dropped. (That [next] does not ask for
    more input in this situation: [C06_server_below_limit].) *)
Theorem C05_server_too_long : forall K g o gr ops s l,
  sran K g o gr ops s l ->
  forall l1 raw v l2, l = l1 ++ SlRx (SrxMsg raw v) :: l2 ->
  (v = SvTooLong <->
   ~ smessage K o (smode l1) (firstn (N.to_nat (so_max_command_size o)) (sunread l1))) /\
  (v = SvTooLong ->
   raw = firstn (N.to_nat (so_max_command_size o)) (sunread l1) /\
   N.of_nat (length raw) = so_max_command_size o).
Proof. exact s_too_long. Qed.
Print Assumptions C05_server_too_long.

(** The limit is crossed after an accepted literal. *)
Example C05_server_example :
  let l := sx_log ex_opts sops_long in
  sran toy ex_gen ex_opts ex_greeting sops_long (sx_server ex_opts sops_long) l /\
  In (ln "A3 APPEND {10}" ++ B "0123456789 this is a com", SvTooLong) (staken l) /\
  In (SlNext (IError (SerrCommandTooLong (ln "A3 APPEND {10}" ++ B "0123456789 this is a com")))) l.
Proof. vm_compute. intuition. Qed.

(** ** C06 *)

Theorem C06_server_below_limit : forall K g o gr ops s l,
  sran K g o gr ops s l ->
  forall l1 l2, l = l1 ++ SlNext INeedMore :: l2 ->
  smode l1 = ExIdleAccept \/
  (~ smessage K o (smode l1) (sunread l1) /\
   (N.of_nat (length (sunread l1)) < so_max_command_size o)%N).
Proof. exact s_need_more. Qed.
Print Assumptions C06_server_below_limit.

(** Hence the amount of unread input is bounded. *)
Theorem C06_server_memory : forall K g o gr ops s l,
  sran K g o gr ops s l ->
  forall k, fed_on_demand k l -> forall l1 l2, l = l1 ++ l2 ->
  (N.of_nat (length (sunread l1)) <= so_max_command_size o + N.of_nat k)%N.
Proof. exact s_memory. Qed.
Print Assumptions C06_server_memory.

(** While a decision about IDLE is pending, it is not bounded: [next] asks for input again
    and again, here one byte at a time. *)
Theorem C06_server_refuted :
  forall n, exists K g o gr ops s l, sran K g o gr ops s l /\
    (forall l1 x l2, l = l1 ++ SlInput x :: l2 ->
       length x <= 10 /\ exists l0, l1 = l0 ++ [SlNext INeedMore]) /\
    so_max_command_size o = 40%N /\ n <= length (server_buf s).
Proof. exact memory_refuted. Qed.
Print Assumptions C06_server_refuted.

Example C06_server_example :
  let l := sx_log ex_opts sops_login in
  (exists l1 l2, l = l1 ++ SlNext INeedMore :: l2 /\ smode l1 = ExCommand /\
     sunread l1 = ln "A2 LOGIN {5}" ++ [LF; CR; LF] ++ B "ce" ++ ln " {3+}" ++ B "bob" ++ [CR]) /\
  exists ops, let l := sx_log ex_opts ops in
    sran toy ex_gen ex_opts ex_greeting ops (sx_server ex_opts ops) l /\
    fed_on_demand 14 l /\ In (ln "A2 LOGIN {5}" ++ B "01234" ++ crlf) (map fst (staken l)).
Proof.
  split.
  - exists (firstn 10 (sx_log ex_opts sops_login)), (skipn 11 (sx_log ex_opts sops_login)).
    vm_compute. auto.
  - exists (snexts 3 ++ [SopEnqueueInput (ln "A2 LOGIN {5}")] ++ snexts 2 ++
            [SopEnqueueInput (B "01234" ++ crlf); SopNext]).
    split; [vm_compute; reflexivity|]. split.
    + intros l1 x l2 E. vm_compute in E.
      do 3 (destruct l1 as [|? l1]; [discriminate E|injection E; clear E; intros E <-]).
      destruct l1 as [|? l1].
      { injection E as <- _. split; [vm_compute; repeat constructor|].
        eexists [_; _], []. split; [reflexivity|]. split; [reflexivity|discriminate]. }
      injection E; clear E; intros E <-.
      do 3 (destruct l1 as [|? l1]; [discriminate E|injection E; clear E; intros E <-]).
      destruct l1 as [|? l1].
      { injection E as <- _. split; [vm_compute; repeat constructor|].
        eexists [_; _; _; _; _; _], []. split; [reflexivity|]. split; [reflexivity|discriminate]. }
      injection E; clear E; intros E <-.
      do 2 (destruct l1 as [|? l1]; [discriminate E|injection E; clear E; intros E <-]).
      destruct l1; discriminate.
    + vm_compute. auto.
Qed.

(** ** C07 *)

(** When [next] asks for input: the unread input contains no complete message (unless a
    decision about IDLE is pending), no internal response is waiting, and no response of
    the application is waiting unless the directly preceding result of [next] was the
    output of an internal response. *)
Theorem C07_server_need_more : forall K g o gr ops s l,
  sran K g o gr ops s l ->
  forall l1 l2, l = l1 ++ SlNext INeedMore :: l2 ->
  (smode l1 = ExIdleAccept \/ ~ smessage K o (smode l1) (sunread l1)) /\
  (forall m, In m (unsent o gr l1) -> sent_event m <> None) /\
  (unsent o gr l1 = [] \/
   exists l0 b lm m, l1 = l0 ++ SlNext (IOutput b) :: lm /\ sresults lm = [] /\
     nth_error (scheduled o gr l0) (length (souts l0)) = Some m /\ sent_event m = None).
Proof.
  intros K g o gr ops s l H l1 l2 E. split; [|exact (s_need_more_unsent K g o gr ops s l H l1 l2 E)].
  destruct (s_need_more K g o gr ops s l H l1 l2 E) as [|[]]; auto.
Qed.
Print Assumptions C07_server_need_more.

(** In particular nothing is waiting if the preceding result was no output. *)
Theorem C07_server_settled : forall K g o gr ops s l,
  sran K g o gr ops s l ->
  forall l1 l2, l = l1 ++ SlNext INeedMore :: l2 -> settled l1 = true -> unsent o gr l1 = [].
Proof. exact s_need_more_settled. Qed.
Print Assumptions C07_server_settled.

(** What is waiting is output by the next call of [next], unless the preceding result was
    an output. *)
Theorem C07_server_outputs : forall K g o gr ops s l,
  sran K g o gr ops s l ->
  forall l1 r0 lm r l3 m ms,
  l = l1 ++ SlNext r0 :: lm ++ SlNext r :: l3 ->
  (forall b, r0 <> IOutput b) -> sresults lm = [] -> staken lm = [] ->
  unsent o gr (l1 ++ SlNext r0 :: lm) = m :: ms ->
  r = IOutput (wire K m).
Proof. exact s_next_outputs. Qed.
Print Assumptions C07_server_outputs.

(** The exception is real: [next] asks for input although a response is waiting that could
    be sent (the same call again outputs it). *)
Theorem C07_server_refuted :
  exists K g o gr ops s l1 b,
    sran K g o gr ops s (l1 ++ [SlNext INeedMore]) /\ unsent o gr l1 <> [] /\
    snd (server_next K s) = IOutput b.
Proof. exact need_more_refuted. Qed.
Print Assumptions C07_server_refuted.

Example C07_server_example :
  let l := sx_log ex_opts sops_login in
  (exists l1 l2, l = l1 ++ SlNext INeedMore :: l2 /\ settled l1 = true /\
     length (scheduled ex_opts ex_greeting l1) = 4) /\
  exists l1 e r l2 m, l = l1 ++ SlNext (IEvent e) :: [] ++ SlNext (IOutput r) :: l2 /\
    unsent ex_opts ex_greeting (l1 ++ [SlNext (IEvent e)]) = [m].
Proof.
  split.
  - exists (firstn 25 (sx_log ex_opts sops_login)), (skipn 26 (sx_log ex_opts sops_login)).
    vm_compute. auto.
  - exists (firstn 18 (sx_log ex_opts sops_login)). do 2 eexists.
    exists (skipn 20 (sx_log ex_opts sops_login)). eexists. vm_compute. split; reflexivity.
Qed.

(** ** C08 *)

Theorem C08_server_returns : forall K g o gr ops s l,
  sran K g o gr ops s l ->
  forall s' rx r, server_next K s = (s', rx, r) -> r <> IFuel /\ r <> INone.
Proof. exact s_returns. Qed.
Print Assumptions C08_server_returns.

Theorem C08_server_bounded : forall K g o gr ops s l,
  sran K g o gr ops s l -> (0 < so_max_command_size o)%N ->
  forall n s' l', server_run K s (repeat SopNext n) = (Some s', l') ->
  6 * length (server_buf s) + 2 * length (unsent o gr l) + 1 < n ->
  In (SlNext INeedMore) l'.
Proof. exact s_bounded. Qed.
Print Assumptions C08_server_bounded.

(** With limit 0 the server reports errors forever. *)
Theorem C08_server_refuted :
  exists K g o gr ops s l, sran K g o gr ops s l /\
    forall n, exists s' l', server_run K s (repeat SopNext n) = (Some s', l') /\
      sresults l' = repeat (IError (SerrCommandTooLong [])) n.
Proof. exact bounded_refuted. Qed.
Print Assumptions C08_server_refuted.

Example C08_server_example :
  let ops := firstn 14 sops_login in
  let s := sx_server ex_opts ops in
  sran toy ex_gen ex_opts ex_greeting ops s (sx_log ex_opts ops) /\
  length (server_buf s) = 22 /\ length (unsent ex_opts ex_greeting (sx_log ex_opts ops)) = 2 /\
  exists s' l', server_run toy s (repeat SopNext 140) = (Some s', l') /\ length (sevents l') = 2.
Proof.
  split; [vm_compute; reflexivity|]. split; [vm_compute; reflexivity|].
  split; [vm_compute; reflexivity|]. eexists. eexists. split; vm_compute; reflexivity.
Qed.

(** ** C09 *)

Theorem C09_server_no_panic : forall K g o gr ops,
  sno_trailing K o -> exists s l, sran K g o gr ops s l.
Proof. exact s_no_panic. Qed.
Print Assumptions C09_server_no_panic.

Example C09_server_contract : forall o, sno_trailing toy o.
Proof. exact toy_sno_trailing. Qed.

(** ** C20 *)

(** Let the next thing on the wire be a malformed line (or one with a wrong line end),
    followed by [rest]. Apart from the errors about it, what happens is what would happen
    if only [rest] were on the wire. While authenticate data is expected, the application
    may call [authenticate_finish] before the line is read, so the line has to be bad as a
    command, too. *)
Theorem C20_server_malformed : forall K g o gr ops s l,
  sran K g o gr ops s l ->
  forall app raw rest xs ys hh,
  polite app -> settled l = true -> no_internal o gr l -> server_buf s = [] ->
  sbad K o (smode l) raw -> (smode l = ExAuthenticateData -> sbad K o ExCommand raw) ->
  concat xs = raw ++ rest -> concat ys = rest ->
  (exists h, sdrive K (fun h => app (no_malformed h)) s xs [] h /\ no_malformed h = hh) <->
  (exists h, sdrive K (fun h => app (no_malformed h)) s ys [] h /\ no_malformed h = hh).
Proof. exact s_malformed. Qed.
Print Assumptions C20_server_malformed.

Example C20_server_example :
  sbad toy ex_opts ExCommand (ln "rubbish") /\ sbad toy ex_opts ExIdleDone (ln "A5 NOOP") /\
  sbad toy ex_opts ExAuthenticateData (B "x y" ++ [LF]) /\
  sbad toy ex_opts ExCommand (B "x y" ++ [LF]) /\
  exists h, sdrive toy (fun h => ex_sapp (no_malformed h)) (server_new ex_gen ex_opts ex_greeting)
    [B "rub"; ln "bish" ++ ln "A1 NOOP"] [] h /\
    soutputs (no_malformed h) = ln "* OK hello" ++ ln "A1 OK done".
Proof.
  assert (L : forall x, ~ In LF x -> is_line (x ++ [LF])) by (intros x H; exists x; auto).
  assert (N0 : forall x, existsb (Byte.eqb LF) x = false -> ~ In LF x).
  { intros x H Hin. assert (existsb (Byte.eqb LF) x = true) by (apply existsb_exists; eauto).
    congruence. }
  split; [|split; [|split; [|split]]].
  - exists SvMalformed. split; [auto|]. split; [|vm_compute; discriminate]. apply scan_end.
    + refine (L (B "rubbish" ++ [CR]) _). apply N0. reflexivity.
    + apply v_failed; [right; exists (B "rubbish"); reflexivity|reflexivity].
  - exists SvMalformed. split; [auto|]. split; [|vm_compute; discriminate]. split; [reflexivity|].
    apply scan_end.
    + refine (L (B "A5 NOOP" ++ [CR]) _). apply N0. reflexivity.
    + apply v_failed; [right; exists (B "A5 NOOP"); reflexivity|reflexivity].
  - exists SvBareLf. split; [auto|]. split; [|vm_compute; discriminate]. split; [reflexivity|].
    apply scan_end.
    + refine (L (B "x y") _). apply N0. reflexivity.
    + apply v_bare; [reflexivity|]. intros (x0 & E). apply (f_equal (@rev Byte.byte)) in E.
      rewrite (rev_app_distr x0) in E. discriminate.
  - exists SvBareLf. split; [auto|]. split; [|vm_compute; discriminate].
    apply scan_end.
    + refine (L (B "x y") _). apply N0. reflexivity.
    + apply v_bare; [reflexivity|]. intros (x0 & E). apply (f_equal (@rev Byte.byte)) in E.
      rewrite (rev_app_distr x0) in E. discriminate.
  - eexists. split; [do 8 sdrive_step; apply sd_stop|vm_compute; reflexivity].
Qed.

(** ** C21 *)

(** The k-th output is the encoding of the k-th scheduled message. *)
Theorem C21_server_in_order : forall K g o gr ops s l,
  sran K g o gr ops s l ->
  souts l = map (wire K) (firstn (length (souts l)) (scheduled o gr l)) /\
  length (souts l) <= length (scheduled o gr l).
Proof. exact s_in_order. Qed.
Print Assumptions C21_server_in_order.

Example C21_server_example :
  let l := sx_log ex_opts sops_login in
  souts l = [ln "* OK hello"; ln "+ go on"; ln "A2 OK done"; ln "* 1 EXISTS"] /\
  let l' := sx_log ex_opts (firstn 16 sops_login) in
  length (souts l') = 3 /\ length (scheduled ex_opts ex_greeting l') = 4.
Proof. vm_compute. auto. Qed.

(** ** C22 *)

(** The result after an output is the report that this message was sent, if it is the
    greeting or a response of the application, and no such report otherwise. *)
Theorem C22_server_sent_after_output : forall K g o gr ops s l,
  sran K g o gr ops s l ->
  forall l1 b lm r l3,
  l = l1 ++ SlNext (IOutput b) :: lm ++ SlNext r :: l3 -> sresults lm = [] ->
  exists m, nth_error (scheduled o gr l1) (length (souts l1)) = Some m /\
    b = wire K m /\ sent_of r = sent_event m.
Proof. exact s_sent_after_output. Qed.
Print Assumptions C22_server_sent_after_output.

(** Such reports occur nowhere else. *)
Theorem C22_server_sent_before : forall K g o gr ops s l,
  sran K g o gr ops s l ->
  forall l1 e l2, l = l1 ++ SlNext (IEvent e) :: l2 -> is_sent_event e = true ->
  exists l0 lm m, l1 = l0 ++ SlNext (IOutput (wire K m)) :: lm /\ sresults lm = [] /\
    nth_error (scheduled o gr l0) (length (souts l0)) = Some m /\ sent_event m = Some e.
Proof. exact s_sent_before. Qed.
Print Assumptions C22_server_sent_before.

(** All reports in order: those of the messages output so far, where the report of the
    last one may be outstanding. *)
Theorem C22_server_sent_list : forall K g o gr ops s l,
  sran K g o gr ops s l ->
  exists k, (k = length (souts l) \/ S k = length (souts l)) /\
    filter is_sent_event (sevents l) = sent_events (firstn k (scheduled o gr l)).
Proof. exact s_sent_list. Qed.
Print Assumptions C22_server_sent_list.

Example C22_server_example :
  filter is_sent_event (sevents (sx_log ex_opts sops_login)) =
    [SeGreetingSent ex_greeting; SeResponseSent (hd_ 0) (ex_ok "A2");
     SeResponseSent (hd_ 1) (RData (DOther (B "1 EXISTS")))].
Proof. vm_compute. reflexivity. Qed.

(** ** C23 *)

(** Accepted literals are announced by the codec in the unread input (so by
    [C03_server_frames] and [C03_framing_unique] each literal of a command is accepted
    exactly once), and respect the limit. Each schedules one continuation request if it is
    synchronizing and nothing otherwise (see [scheduled] in [C21_server_in_order]). *)
Theorem C23_server_literals : forall K g o gr ops s l,
  sran K g o gr ops s l ->
  forall l1 i l2, l = l1 ++ SlRx (SrxLit i) :: l2 ->
  smode l1 = ExCommand /\ (cl_length i <= so_max_literal_size o)%N /\
  exists p rest, sunread l1 = p ++ rest /\
    opened (dec_command K) (so_crlf_relaxed o) (cmd_accept o) p (slits l1 ++ [i]) (cl_length i) /\
    (N.of_nat (length p) <= so_max_command_size o)%N.
Proof. exact s_literals. Qed.
Print Assumptions C23_server_literals.

Theorem C23_server_acknowledged : forall K g o gr ops s l,
  sran K g o gr ops s l ->
  forall l1 i lm r l3,
  l = l1 ++ SlRx (SrxLit i) :: lm ++ SlNext r :: l3 -> sresults lm = [] ->
  cl_mode i = LSync -> unsent o gr l1 = [] ->
  r = IOutput (frags_bytes (enc_response K (accept_response o i))).
Proof. exact s_acknowledged. Qed.
Print Assumptions C23_server_acknowledged.

(** Literals that are too long. *)
Theorem C23_server_rejected : forall K g o gr ops s l,
  sran K g o gr ops s l ->
  forall l1 raw i l2, l = l1 ++ SlRx (SrxMsg raw (SvLiteralTooLong i)) :: l2 ->
  smode l1 = ExCommand /\ (so_max_literal_size o < cl_length i)%N /\
  (exists l3, l2 = SlNext (IError (SerrLiteralTooLong raw)) :: l3) /\
  (cl_mode i = LSync -> unsent o gr l1 = [] ->
   forall lm r l3, l2 = SlNext (IError (SerrLiteralTooLong raw)) :: lm ++ SlNext r :: l3 ->
   sresults lm = [] ->
   r = IOutput (frags_bytes (enc_response K (reject_response o i)))).
Proof. exact s_rejected. Qed.
Print Assumptions C23_server_rejected.

(** 11 bytes are too long, synchronizing or not; 10 bytes are accepted. *)
Example C23_server_example :
  let l := sx_log ex_opts sops_long in
  staken (firstn 9 l) =
    [(ln "A1 APPEND {11}", SvLiteralTooLong (CmdLit (B "A1") 11 LSync));
     (ln "A2 APPEND {11+}", SvLiteralTooLong (CmdLit (B "A2") 11 LNonSync))] /\
  souts l = [ln "* OK hello"; ln "A1 BAD too long"; ln "+ go on"] /\
  (exists l2, l = firstn 8 l ++ SlRx (SrxLit (CmdLit (B "A3") 10 LSync)) :: l2) /\
  unsent ex_opts ex_greeting (firstn 8 l) = [] /\ unsent ex_opts ex_greeting (firstn 3 l) = [].
Proof. vm_compute. repeat split. eexists. reflexivity. Qed.

(** ** C24 *)

(** While a decision about IDLE is pending, no input is consumed. *)
Theorem C24_server_idle_waits : forall K g o gr ops s l,
  sran K g o gr ops s l ->
  forall l1 x l2, l = l1 ++ SlRx x :: l2 -> smode l1 <> ExIdleAccept.
Proof. exact s_idle_waits. Qed.
Print Assumptions C24_server_idle_waits.

(** After [idle_accept], frames are read as DONE. *)
Theorem C24_server_idle_done : forall K g o gr ops s l,
  sran K g o gr ops s l ->
  forall l1 raw v l2, l = l1 ++ SlRx (SrxMsg raw v) :: l2 -> smode l1 = ExIdleDone ->
  v <> SvTooLong -> exists out, idledone_frame K o raw [] out /\
    v = match out with OMsg _ => SvIdleDone | OBareLf => SvBareLf | _ => SvMalformed end.
Proof. exact s_idle_done. Qed.
Print Assumptions C24_server_idle_done.

(** The calls succeed exactly while a decision is pending, and else return the argument. *)
Theorem C24_server_idle_accept : forall K g o gr ops s l,
  sran K g o gr ops s l ->
  forall l1 q r l2, l = l1 ++ SlIdleAccept q r :: l2 ->
  call_result (expected_eqb (smode l1) ExIdleAccept) q r.
Proof. exact s_idle_accept. Qed.
Print Assumptions C24_server_idle_accept.

Theorem C24_server_idle_reject : forall K g o gr ops s l,
  sran K g o gr ops s l ->
  forall l1 t r l2, l = l1 ++ SlIdleReject t r :: l2 ->
  call_result (expected_eqb (smode l1) ExIdleAccept) t r.
Proof. exact s_idle_reject. Qed.
Print Assumptions C24_server_idle_reject.

Theorem C24_server_refused : forall s,
  (forall q s' q', server_idle_accept s q = Val (s', inr q') -> s' = s /\ q' = q) /\
  (forall t s' t', server_idle_reject s t = Val (s', inr t') -> s' = s /\ t' = t).
Proof.
  intro s. split; intros x s' x'; [apply s_refused_idle_accept|apply s_refused_idle_reject].
Qed.
Print Assumptions C24_server_refused.

Example C24_server_example :
  let l := sx_log ex_opts sops_flow in
  sran toy ex_gen ex_opts ex_greeting sops_flow (sx_server ex_opts sops_flow) l /\
  (exists l1 l2 l3, l = l1 ++ SlIdleAccept (CcrBasic None (B "idling")) (inl (hd_ 2)) ::
     SlIdleReject (StTagged (B "A4") (StatusBody SkNo None (B "late")))
       (inr (StTagged (B "A4") (StatusBody SkNo None (B "late")))) :: l2 /\
     smode l1 = ExIdleAccept /\ sunread l1 = ln "DONE" ++ ln "A5 NOOP" /\
     In (SlNext INeedMore) (skipn (length l1 - 1) l1) /\
     l2 = firstn 2 l2 ++ SlRx (SrxMsg (ln "DONE") SvIdleDone) :: l3) /\
  In (SlIdleAccept (CcrBasic None (B "early")) (inr (CcrBasic None (B "early")))) l.
Proof.
  split; [vm_compute; reflexivity|]. split; [|vm_compute; intuition].
  exists (firstn 20 (sx_log ex_opts sops_flow)), (skipn 22 (sx_log ex_opts sops_flow)),
    (skipn 25 (sx_log ex_opts sops_flow)). vm_compute. auto 10.
Qed.

(** ** C25 *)

(** Until [authenticate_finish], frames are read as authenticate data. *)
Theorem C25_server_auth_data : forall K g o gr ops s l,
  sran K g o gr ops s l ->
  forall l1 raw v l2, l = l1 ++ SlRx (SrxMsg raw v) :: l2 -> smode l1 = ExAuthenticateData ->
  v <> SvTooLong -> exists out, authdata_frame K o raw [] out /\
    v = match out with OMsg d => SvAuthData d | OBareLf => SvBareLf | _ => SvMalformed end.
Proof. exact s_auth_data. Qed.
Print Assumptions C25_server_auth_data.

Theorem C25_server_auth_continue : forall K g o gr ops s l,
  sran K g o gr ops s l ->
  forall l1 q r l2, l = l1 ++ SlAuthContinue q r :: l2 ->
  call_result (expected_eqb (smode l1) ExAuthenticateData) q r.
Proof. exact s_auth_continue. Qed.
Print Assumptions C25_server_auth_continue.

Theorem C25_server_auth_finish : forall K g o gr ops s l,
  sran K g o gr ops s l ->
  forall l1 t r l2, l = l1 ++ SlAuthFinish t r :: l2 ->
  call_result (expected_eqb (smode l1) ExAuthenticateData) t r.
Proof. exact s_auth_finish. Qed.
Print Assumptions C25_server_auth_finish.

Theorem C25_server_refused : forall s,
  (forall q s' q', server_authenticate_continue s q = (s', inr q') -> s' = s /\ q' = q) /\
  (forall t s' t', server_authenticate_finish s t = Val (s', inr t') -> s' = s /\ t' = t).
Proof.
  intro s. split; intros x s' x'; [apply s_refused_auth_continue|apply s_refused_auth_finish].
Qed.
Print Assumptions C25_server_refused.

(** "A9 NOOP" is read as authenticate data. *)
Example C25_server_example :
  let l := sx_log ex_opts sops_flow in
  (exists l1 l2, l = l1 ++ SlRx (SrxMsg (ln "A9 NOOP") (SvAuthData (ADContinue (B "A9 NOOP")))) :: l2 /\
     smode l1 = ExAuthenticateData) /\
  In (SlAuthContinue (CcrBasic None (B "data?")) (inl (hd_ 0))) l /\
  In (SlAuthFinish (StTagged (B "A3") (StatusBody SkOk None (B "in"))) (inl (hd_ 1))) l /\
  In (SlAuthFinish (StTagged (B "A3") (StatusBody SkNo None (B "twice")))
    (inr (StTagged (B "A3") (StatusBody SkNo None (B "twice"))))) l.
Proof.
  split; [|vm_compute; intuition].
  exists (firstn 9 (sx_log ex_opts sops_flow)), (skipn 10 (sx_log ex_opts sops_flow)).
  vm_compute. auto.
Qed.
