(** The test with the large messages, for messages and networks of every size. *)
From Coq Require Import String List NArith Bool PeanoNat Lia.
From Verif Require Import Base Types Codec Handle Receive ClientSend Client ServerSend Server Stream StreamMachine
  ToyCodec SpecFraming ToyLaws Testers SpecTests TestRuns Tests.
Import ListNotations.
Open Scope list_scope.

(** ** The messages *)
Definition login_x (n : nat) : bytes := B "LOGIN ABCDE " ++ repeat x78 n.
Definition cmd_x (n : nat) : command := Command (B "A1") (BOther (login_x n)).
Definition login_line (n : nat) : bytes := B "A1 LOGIN ABCDE " ++ repeat x78 n ++ crlf.
Definition status_x (n : nat) : status := StTagged (B "A1") (StatusBody SkOk None (long n)).
Definition status_line (n : nat) : bytes := B "A1 OK " ++ long n ++ crlf.

Lemma chomp_crlf : forall x, chomp (x ++ crlf) = x.
Proof. intro x. unfold chomp, crlf. rewrite rev_app_distr. cbn. apply rev_involutive. Qed.

Lemma rev_repeat : forall A (a : A) n, rev (repeat a n) = repeat a n.
Proof.
  induction n as [|n IH]; [reflexivity|]. cbn. rewrite IH. clear IH.
  induction n as [|n IH]; [reflexivity|]. cbn. now rewrite IH.
Qed.

(** A line whose text ends with padding. *)
Lemma padded_walk : forall p b n,
  ~ In LF p -> b <> LF -> b <> x7d -> hd_error (rev p) = Some SP ->
  walk_all (p ++ repeat b n ++ crlf) = WDone [FLine (p ++ repeat b n ++ crlf)] [].
Proof.
  intros p b n Hp Hb Hc Hs. set (w := p ++ repeat b n ++ crlf).
  assert (L : is_line w).
  { exists (p ++ repeat b n ++ [CR]). split.
    - unfold w, crlf. rewrite <- !app_assoc. reflexivity.
    - rewrite !in_app_iff. intros [H|[H|[H|[]]]]; [auto| |discriminate].
      apply repeat_spec in H. congruence. }
  assert (A : announce w = None).
  { unfold announce, w. rewrite app_assoc, chomp_crlf, rev_app_distr, rev_repeat.
    destruct n as [|n]; cbn [repeat app].
    - destruct (rev p) as [|a q]; [discriminate|]. inversion Hs. reflexivity.
    - destruct b; try reflexivity; congruence. }
  unfold walk_all. cbn [walk].
  pose proof (cut_line_line w [] L) as E. rewrite app_nil_r in E. rewrite E, A. reflexivity.
Qed.

Ltac notin := let H := fresh in intro H; cbn in H; repeat (destruct H as [H|H]; [discriminate|]); destruct H.

Lemma login_walk : forall n, walk_all (login_line n) = WDone [FLine (login_line n)] [].
Proof. intro n. apply padded_walk; [notin|discriminate|discriminate|reflexivity]. Qed.
Lemma status_walk : forall n, walk_all (status_line n) = WDone [FLine (status_line n)] [].
Proof. intro n. apply (padded_walk (B "A1 OK ")); [notin|discriminate|discriminate|reflexivity]. Qed.

Lemma frags_one : forall l, frags_bytes [FLine l] = l.
Proof. intro l. cbn. apply app_nil_r. Qed.

Lemma login_chomp : forall n, chomp (login_line n) = B "A1 " ++ login_x n.
Proof. intro n. unfold login_line. rewrite app_assoc, chomp_crlf. reflexivity. Qed.
Lemma status_chomp : forall n, chomp (status_line n) = B "A1 OK " ++ long n.
Proof. intro n. unfold status_line. rewrite app_assoc, chomp_crlf. reflexivity. Qed.

Lemma login_enc : forall n, enc_command imap (cmd_x n) = [FLine (login_line n)].
Proof.
  intro n. cbn [enc_command imap]. unfold t_enc_command. cbn [cbody cmd_x ctag].
  replace (B "A1" ++ SP :: login_x n ++ crlf) with (login_line n) by (unfold login_line, login_x; rewrite <- app_assoc; reflexivity).
  now rewrite login_walk.
Qed.
Lemma login_dec : forall n, dec_command imap (login_line n) = DecOk [] (cmd_x n).
Proof.
  intro n. cbn [dec_command imap]. unfold t_dec_command. rewrite login_walk, frags_one, login_chomp.
  unfold login_x. cbn. reflexivity.
Qed.
Lemma login_dec_n : forall n, dec_cmd_n imap (login_line n) = Some (cmd_x n).
Proof.
  intro n. unfold dec_cmd_n, dec_cmd, only, normalized. rewrite login_dec, login_enc, frags_one.
  now rewrite bytes_eqb_refl.
Qed.

Lemma status_enc : forall n, enc_response imap (RStatus (status_x n)) = [FLine (status_line n)].
Proof.
  intro n. cbn [enc_response imap]. unfold t_enc_response.
  replace (response_wire (RStatus (status_x n)) ++ crlf) with (status_line n) by (unfold status_line; cbn; reflexivity).
  now rewrite status_walk.
Qed.
Lemma status_dec_res : forall n, dec_response imap (status_line n) = DecOk [] (RStatus (status_x n)).
Proof.
  intro n. cbn [dec_response imap]. unfold t_dec_response. rewrite status_walk, frags_one, status_chomp.
  assert (P : parse_code (long n) = (None, long n)) by (destruct n; reflexivity).
  cbn -[long parse_code]. unfold body_of. rewrite P. reflexivity.
Qed.
Lemma status_dec_n : forall n, dec_status_n imap (status_line n) = Some (status_x n).
Proof.
  intro n. unfold dec_status_n, dec_status, dec_res, only, normalized.
  rewrite status_dec_res, status_enc, frags_one. now rewrite bytes_eqb_refl.
Qed.

(** ** Networks that hold more *)
Section Mono.
Context (E1 E2 : side) (t t' : test E1 E2).
Context (Hc : tc_cap t <= tc_cap t').
Lemma tstep_mono : forall s k s',
  nth_error (tc_phases t') (ts_ph s) = nth_error (tc_phases t) (ts_ph s) ->
  tstep E1 E2 t s k = Some s' -> tstep E1 E2 t' s k = Some s'.
Proof.
  intros s k s' Hp. unfold tstep. rewrite Hp.
  destruct (nth_error (tc_phases t) (ts_ph s)) as [p|]; [|discriminate].
  destruct (ts_panic s); [discriminate|]. destruct (over E1 E2 p s); [trivial|].
  destruct k; try trivial;
    match goal with |- context [nth_error ?a ?b] => destruct (nth_error a b) end; try trivial.
  - destruct (firstn n (e_out E1 (ts_l s))); [trivial|]. cbn zeta.
    destruct (Nat.leb_spec (length (ts_right s) + length (b :: l)) (tc_cap t)); [|discriminate].
    destruct (Nat.leb_spec (length (ts_right s) + length (b :: l)) (tc_cap t')); [trivial|lia].
  - destruct (firstn n (e_out E2 (ts_r s))); [trivial|]. cbn zeta.
    destruct (Nat.leb_spec (length (ts_left s) + length (b :: l)) (tc_cap t)); [|discriminate].
    destruct (Nat.leb_spec (length (ts_left s) + length (b :: l)) (tc_cap t')); [trivial|lia].
Qed.

(** Every choice of the schedule is possible, in the first [n] phases. *)
Fixpoint possible (n : nat) (s : tstate E1 E2) (ks : list choice) : bool :=
  match ks with
  | [] => true
  | k :: ks' =>
      Nat.ltb (ts_ph s) n &&
      match tstep E1 E2 t s k with Some s' => possible n s' ks' | None => false end
  end.
Lemma trun_mono : forall n, (forall i, i < n -> nth_error (tc_phases t') i = nth_error (tc_phases t) i) ->
  forall ks s, possible n s ks = true -> trun E1 E2 t' s ks = trun E1 E2 t s ks.
Proof.
  intros n Hp. induction ks as [|k ks IH]; intros s H; [reflexivity|]. cbn [possible] in H.
  apply andb_true_iff in H as [H1 H2]. apply Nat.ltb_lt in H1. cbn [trun].
  destruct (tstep E1 E2 t s k) as [s'|] eqn:E; [|discriminate].
  rewrite (tstep_mono s k s' (Hp _ H1) E). now apply IH.
Qed.
End Mono.
Lemma trun_app : forall E1 E2 t ks ks' s, trun E1 E2 t s (ks ++ ks') = trun E1 E2 t (trun E1 E2 t s ks) ks'.
Proof. induction ks as [|k ks IH]; intros; [reflexivity|]. cbn. apply IH. Qed.

Lemma position_crlf : forall y, ~ In LF y -> position_lf (y ++ crlf) = Some (S (length y)).
Proof.
  induction y as [|a y IH]; intro H; [reflexivity|]. cbn. destruct (is_lf a) eqn:E.
  - apply is_lf_true in E. subst. exfalso. apply H. now left.
  - rewrite IH; [reflexivity|]. intro I. apply H. now right.
Qed.
Lemma nth_crlf : forall y, nth_error (y ++ crlf) (length y) = Some CR.
Proof. induction y as [|a y IH]; [reflexivity|apply IH]. Qed.

(** A line whose first byte was seen already. *)
Lemma next_line : forall M L (dec : bytes -> dec_result M L) m b w' x,
  b :: w' = x ++ crlf -> ~ In LF x -> dec (b :: w') = DecOk [] m ->
  rs_next dec (RState false None (NfLine 1) 0 (b :: w')) =
  (RState false None (NfLine 0) (length (b :: w')) (b :: w'), RcvMsg m).
Proof.
  intros M L dec m b w' x Hx Hlf Hd. remember (b :: w') as w eqn:Hw.
  assert (P : position_lf w' = Some (length x) /\ nth_error w (length x) = Some CR /\ length w = S (S (length x))).
  { split; [|split].
    - destruct x as [|a y].
      + rewrite Hx in Hw. inversion Hw. reflexivity.
      + rewrite Hx in Hw. inversion Hw. cbn [length]. apply position_crlf. intro I. apply Hlf. now right.
    - rewrite Hx. apply nth_crlf.
    - rewrite Hx, app_length. cbn. lia. }
  destruct P as (P1 & P2 & P3).
  assert (S1 : forall y : bytes, slice 0 (length y) y = Val y).
  { intro y. unfold slice. rewrite Nat.leb_refl. cbn. now rewrite Nat.sub_0_r, firstn_all. }
  assert (S2 : slice 1 (length w) w = Val w').
  { subst w. unfold slice. rewrite Nat.leb_refl. cbn. now rewrite Nat.sub_0_r, firstn_all. }
  unfold rs_next, rs_frag, progress_line, rs_max_readable, rs_max, rs_buf, rs_seen, rs_relaxed.
  rewrite S1. unfold find_crlf. rewrite S2. cbn [bind]. rewrite P1.
  replace (1 + length x - 1) with (length x) by lia. rewrite P2. change (is_cr CR) with true. cbn [negb andb].
  unfold rs_set_frag, rs_set_seen, rs_seen, rs_buf, rs_relaxed, rs_max, rs_frag, start_new_line.
  replace (0 + (1 + length x + 1)) with (length w) by lia.
  rewrite S1, Hd. reflexivity.
Qed.

(** ** The steps of the two sides, for every codec *)
Section Sides.
Context (K : Codecs) (l w : bytes) (c : command) (p : bytes) (st : status).
Context (Hbody : cbody c = BOther p) (Hdec : dec_cmd_n K l = Some c) (Henc : enc_command K c = [FLine l])
  (Hl : l <> []).
Context (Hsdec : dec_status_n K w = Some st) (Hsd : dec_response K w = DecOk [] (RStatus st))
  (Hsenc : enc_response K (RStatus st) = [FLine w]).
Context (b : byte) (w' x : bytes) (Hw : w = b :: w') (Hx : w = x ++ crlf) (Hlf : ~ In LF x).

Definition c_of (k : N) (q : list (handle * command)) (m : option current_message) (f : next_fragment) (i : bytes) : client :=
  {| c_gen := HGen 0 k; c_send := {| cs_queue := q; cs_current := m |};
     c_recv := CrResponse (RState false None f 0 i) |}.
Definition ct_of (wb : bytes) (m : client) (f : fut) (o : option (handle * command)) : ctester K :=
  CTester K (@XState no_tls (client_machine K) (StreamSt None [] wb) m f) o.
Definition h1 : handle := {| h_gen := 0; h_id := 1 |}.

Lemma cl_enqueue : forall o,
  e_poll (client_end K) (CiEnqueue l : e_ins (client_end K)) (ct_of [] (c_of 1 [] None (NfLine 0) []) FIdle o) =
  Some (ct_of [] (c_of 2 [(h1, c)] None (NfLine 0) []) FIdle (Some (h1, c)), VDone).
Proof. intro o. cbn. rewrite Hdec. reflexivity. Qed.

Lemma cl_start : forall o,
  e_poll (client_end K) (CiNext CxSent : e_ins (client_end K)) (ct_of [] (c_of 2 [(h1, c)] None (NfLine 0) []) FIdle o) =
  Some (ct_of l (c_of 2 [] (Some (CmCommand h1 c [] (CaWaitingForFragmentsSent None))) (NfLine 0) []) FSelect o, VGoing).
Proof.
  intro o. cbn. unfold queued_start. rewrite Hbody, Henc. cbn. rewrite app_nil_r.
  destruct l as [|a l']; [congruence|]. reflexivity.
Qed.

Lemma cl_sent :
  e_read (client_end K) (CiNext CxSent : e_ins (client_end K))
    (ct_of l (c_of 2 [] (Some (CmCommand h1 c [] (CaWaitingForFragmentsSent None))) (NfLine 0) []) FSelect (Some (h1, c))) [b] =
  Some (ct_of l (c_of 2 [] None (NfLine 0) [b]) FIdle (Some (h1, c)), VDone).
Proof.
  cbn. unfold mine, my, same. cbn [ct_cmd option_map snd].
  destruct (handle_dec h1 h1); [|congruence]. destruct (command_dec c c); [|congruence]. reflexivity.
Qed.

Lemma cl_wait : is_lf b = false -> forall o,
  e_poll (client_end K) (CiNext (CxStatus w) : e_ins (client_end K)) (ct_of l (c_of 2 [] None (NfLine 0) [b]) FIdle o) =
  Some (ct_of l (c_of 2 [] None (NfLine 1) [b]) FSelect o, VGoing).
Proof.
  intros Hb o. cbn. rewrite Hb. cbn. rewrite app_nil_r. destruct l as [|a l']; [congruence|]. reflexivity.
Qed.

Lemma cl_next :
  client_next K (c_of 2 [] None (NfLine 1) w) =
  (c_of 2 [] None (NfLine 0) [], [Crx w (CvResponse (RStatus st))], IEvent (CeStatusReceived st)).
Proof.
  unfold client_next, client_fuel. cbn [client_next_loop]. unfold client_progress_send. cbn [c_of c_recv cs_next c_send cs_current cs_queue].
  cbn [c_set_send]. unfold client_fuel. cbn [client_progress_receive c_recv c_set_send c_of].
  pose proof (next_line _ _ (dec_response K) (RStatus st) b w' x) as N. rewrite <- Hw in N. rewrite (N Hx Hlf Hsd).
  unfold rs_finish_message. cbn [rs_seen rs_buf]. rewrite Nat.leb_refl, skipn_all, firstn_all. reflexivity.
Qed.

Lemma dec_status_of : dec_status K w = Some st.
Proof.
  revert Hsdec. unfold dec_status_n, normalized. destruct (dec_status K w); [|discriminate].
  destruct (bytes_eqb _ _); [trivial|discriminate].
Qed.

Lemma cl_status :
  e_read (client_end K) (CiNext (CxStatus w) : e_ins (client_end K))
    (ct_of l (c_of 2 [] None (NfLine 1) [b]) FSelect (Some (h1, c))) w' =
  Some (ct_of l (c_of 2 [] None (NfLine 0) []) FIdle (Some (h1, c)), VDone).
Proof.
  assert (E : xstep no_tls (client_machine K) 0
      (@XState no_tls (client_machine K) (StreamSt None [] l) (c_of 2 [] None (NfLine 1) [b]) FSelect) (@ARead (client_machine K) (Some w')) =
    (@XState no_tls (client_machine K) (StreamSt None [] l) (c_of 2 [] None (NfLine 0) []) FIdle,
     [XRead w'; XGive w'; XNext (@MEvent (m_ev (client_machine K)) (m_er (client_machine K)) (CeStatusReceived st)); XRet (@RetEvent (client_machine K) (CeStatusReceived st))])).
  { unfold xstep. cbn [x_f reading x_s x_tls x_rbuf x_wbuf x_m app].
    assert (exists a w2, w' = a :: w2) as (a & w2 & Ew).
    { assert (length w = S (length w') /\ length w = length x + 2) as [L1 L2].
      { rewrite Hw at 1. rewrite Hx, app_length. split; reflexivity. }
      destruct w' as [|a w2]; [cbn in L1; lia|eauto]. }
    rewrite Ew.
    unfold sync, sync_input. cbn [x_tls x_rbuf x_wbuf].
    change (m_enqueue (client_machine K) (c_of 2 [] None (NfLine 1) [b]) (a :: w2)) with (Some (c_of 2 [] None (NfLine 1) (b :: a :: w2))).
    cbn [m_next client_machine]. rewrite <- Ew, <- Hw, cl_next. reflexivity. }
  cbn [e_read client_end ct_of ct_x x_f reading]. cbn [reading]. rewrite E.
  unfold c_after. cbn [outcome c_meets]. rewrite dec_status_of. unfold same.
  destruct (status_dec st st); [|congruence]. reflexivity.
Qed.

(** The server *)
Context (so : soptions) (Hso : so_max_command_size so <> 0%N).
Definition s_of (k : N) (q : list smsg) (m : option smsg) : server :=
  {| s_opts := so; s_gen := HGen 0 k; s_send := {| ss_queue := q; ss_current := m |};
     s_recv := SrCommand (RState false (Some (so_max_command_size so)) (NfLine 0) 0 []) |}.
Definition st_of (wb : bytes) (m : server) (f : fut) (o : option (handle * response)) : stester K :=
  STester K so (HGen 0 0) (Some (@XState no_tls (server_machine K) (StreamSt None [] wb) m f)) o.
Definition h0 : handle := {| h_gen := 0; h_id := 0 |}.
Let SEK := server_end K.

Lemma sv_enqueue : forall o,
  e_poll SEK (SiStatus w : e_ins SEK) (st_of [] (s_of 0 [] None) FIdle o) =
  Some (st_of [] (s_of 1 [SmResponse (Some h0) (RStatus st)] None) FIdle (Some (h0, RStatus st)), VDone).
Proof. intro o. cbn. rewrite Hsdec. reflexivity. Qed.

Lemma sv_start : forall o,
  e_poll SEK (SiNext SxSent : e_ins SEK) (st_of [] (s_of 1 [SmResponse (Some h0) (RStatus st)] None) FIdle o) =
  Some (st_of w (s_of 1 [] (Some (SmResponse (Some h0) (RStatus st)))) FSelect o, VGoing).
Proof. intro o. cbn. rewrite Hsenc. cbn. rewrite app_nil_r, Hw. reflexivity. Qed.

Lemma sv_write : forall v n o, 0 < n -> n < length v ->
  e_wrote SEK (SiNext SxSent : e_ins SEK) (st_of v (s_of 1 [] (Some (SmResponse (Some h0) (RStatus st)))) FSelect o) n =
  (st_of (skipn n v) (s_of 1 [] (Some (SmResponse (Some h0) (RStatus st)))) FSelect o, VGoing).
Proof.
  intros v n o H1 H2. cbn. destruct n as [|n]; [lia|].
  destruct (Nat.leb_spec (S n) (length v)); [|lia].
  destruct (skipn (S n) v) as [|a r] eqn:E.
  { pose proof (skipn_length (S n) v) as L. rewrite E in L. cbn in L. lia. }
  reflexivity.
Qed.

Lemma sv_written : forall v n, 0 < n -> n = length v ->
  e_wrote SEK (SiNext SxSent : e_ins SEK) (st_of v (s_of 1 [] (Some (SmResponse (Some h0) (RStatus st)))) FSelect (Some (h0, RStatus st))) n =
  (st_of [] (s_of 1 [] None) FIdle (Some (h0, RStatus st)), VDone).
Proof.
  intros v n H1 ->. cbn. destruct (length v) as [|n] eqn:E; [lia|].
  rewrite Nat.leb_refl, <- E, skipn_all. cbn. unfold same.
  destruct (handle_dec h0 h0); [|congruence]. destruct (status_dec st st); [|congruence]. reflexivity.
Qed.

Lemma sv_wait : forall o,
  e_poll SEK (SiNext (SxCommand l) : e_ins SEK) (st_of [] (s_of 1 [] None) FIdle o) =
  Some (st_of [] (s_of 1 [] None) FRead o, VGoing).
Proof.
  intro o.
  assert (P : progress_line (dec_command K) (RState false (Some (so_max_command_size so)) (NfLine 0) 0 []) 0 =
    (RState false (Some (so_max_command_size so)) (NfLine 0) 0 [], RcvNeedMore)).
  { destruct (so_max_command_size so); [congruence|]. reflexivity. }
  cbn -[progress_line]. rewrite P. reflexivity.
Qed.
End Sides.

(** ** The test *)
Definition large_test (cap n : nat) : test CE SE := pair_send_large_messages_in_parallel cap n.

(** The first two phases, byte by byte. *)
Definition slowly : list choice :=
  [KPollL; KPollR; KPollR] ++ flat_map (fun _ => [KWriteR 1; KReadL 1]) (seq 0 10) ++
  [KNext; KPollL; KPollL; KPollR] ++ flat_map (fun _ => [KWriteL 1; KReadR 1]) (seq 0 9) ++ [KNext].

Definition cmd0 : option (handle * command) := Some (h0, Command (B "A1") (BOther (B "NOOP"))).
Definition state2 : tstate CE SE :=
  @TState CE SE (ct_of imap [] (c_of 1 [] None (NfLine 0) []) FIdle cmd0)
    (st_of imap o_unlimited [] (s_of o_unlimited 0 [] None) FIdle None) [] [] 2 0 0 false.

Lemma slowly_small : trun CE SE (large_test 1 0) (tstart CE SE (large_test 1 0)) slowly = state2.
Proof. exact_no_check (eq_refl state2). Qed.

Lemma slowly_large : forall cap n, 1 <= cap ->
  trun CE SE (large_test cap n) (tstart CE SE (large_test cap n)) slowly = state2.
Proof.
  intros cap n Hc. rewrite <- slowly_small.
  apply (trun_mono CE SE (large_test 1 0) (large_test cap n) Hc 2).
  - intros i Hi. destruct i as [|[|i]]; [reflexivity|reflexivity|lia].
  - vm_cast_no_check (eq_refl true).
Qed.

(** *** Single steps *)
Section Steps.
Context (E1 E2 : side) (t : test E1 E2) (s : tstate E1 E2) (p : phase E1 E2).
Context (Hp : nth_error (tc_phases t) (ts_ph s) = Some p) (Hn : ts_panic s = false).

Lemma next_step : forall l r, p = Both l r -> over E1 E2 p s = true ->
  tstep E1 E2 t s KNext = Some (TState (ts_l s) (ts_r s) (ts_right s) (ts_left s) (S (ts_ph s)) 0 0 false).
Proof. intros l r -> Ho. unfold tstep. rewrite Hp, Hn, Ho. reflexivity. Qed.

Context (Ho : over E1 E2 p s = false).
Lemma poll_l : forall i x, nth_error (prog_l E1 E2 p) (ts_lpc s) = Some i -> e_poll E1 i (ts_l s) = Some x ->
  tstep E1 E2 t s KPollL = Some (left_did E1 E2 s (ts_right s) (ts_left s) x).
Proof. intros i x Hi Hx. unfold tstep. rewrite Hp, Hn, Ho, Hi, Hx. reflexivity. Qed.
Lemma poll_r : forall i x, nth_error (prog_r E1 E2 p) (ts_rpc s) = Some i -> e_poll E2 i (ts_r s) = Some x ->
  tstep E1 E2 t s KPollR = Some (right_did E1 E2 s (ts_right s) (ts_left s) x).
Proof. intros i x Hi Hx. unfold tstep. rewrite Hp, Hn, Ho, Hi, Hx. reflexivity. Qed.
Lemma read_l : forall i n b bs x, nth_error (prog_l E1 E2 p) (ts_lpc s) = Some i ->
  firstn n (ts_left s) = b :: bs -> e_read E1 i (ts_l s) (b :: bs) = Some x ->
  tstep E1 E2 t s (KReadL n) = Some (left_did E1 E2 s (ts_right s) (skipn n (ts_left s)) x).
Proof. intros i n b bs x Hi Hb Hx. unfold tstep. rewrite Hp, Hn, Ho, Hi, Hb, Hx. reflexivity. Qed.
Lemma write_r : forall i n b bs, nth_error (prog_r E1 E2 p) (ts_rpc s) = Some i ->
  firstn n (e_out E2 (ts_r s)) = b :: bs -> length (ts_left s) + length (b :: bs) <= tc_cap t ->
  tstep E1 E2 t s (KWriteR n) =
  Some (right_did E1 E2 s (ts_right s) (ts_left s ++ b :: bs) (e_wrote E2 i (ts_r s) (length (b :: bs)))).
Proof.
  intros i n b bs Hi Hb Hc. unfold tstep. rewrite Hp, Hn, Ho, Hi, Hb. cbn zeta.
  apply Nat.leb_le in Hc. rewrite Hc. reflexivity.
Qed.

(** The left side has returned; the right side neither runs, nor reads, nor writes. *)
Lemma stuck : forall i, nth_error (prog_l E1 E2 p) (ts_lpc s) = None ->
  nth_error (prog_r E1 E2 p) (ts_rpc s) = Some i -> e_poll E2 i (ts_r s) = None -> ts_right s = [] ->
  e_out E2 (ts_r s) = [] \/ tc_cap t <= length (ts_left s) ->
  forall k, tstep E1 E2 t s k = None.
Proof.
  intros i Hl Hr Hi Hb Hw k. unfold tstep. rewrite Hp, Hn, Ho.
  destruct k; rewrite ?Hl, ?Hr; try reflexivity.
  - now rewrite Hi.
  - rewrite Hb, firstn_nil. reflexivity.
  - cbn zeta. destruct (firstn n (e_out E2 (ts_r s))) as [|b bs] eqn:E; [reflexivity|].
    destruct Hw as [Hw|Hw]; [rewrite Hw, firstn_nil in E; discriminate|].
    destruct (Nat.leb_spec (length (ts_left s) + length (b :: bs)) (tc_cap t)); [cbn in *; lia|reflexivity].
Qed.
End Steps.

Lemma trun_cons : forall E1 E2 t s k s' ks, tstep E1 E2 t s k = Some s' ->
  trun E1 E2 t s (k :: ks) = trun E1 E2 t s' ks.
Proof. intros E1 E2 t s k s' ks H. cbn. now rewrite H. Qed.

(** *** The last two phases *)
Section Large.
Context (cap n : nat) (Hcap : 1 <= cap).
Let t := large_test cap n.
Let l := login_line n.
Let w := status_line n.
Let st := status_x n.
Let c := cmd_x n.
Let w' := tl w.
Let sm := SmResponse (Some h0) (RStatus st).
Let cc := Some (h1, c).
Let sc := Some (h0, RStatus st).

Let wlen : length w = n + 8.
Proof. unfold w, status_line, long. rewrite !app_length, repeat_length. cbn. lia. Qed.

(** The state in the phase [ph]. *)
Definition at_ph (a : ctester imap) (b : stester imap) (left : bytes) (ph lpc rpc : nat) : tstate CE SE :=
  @TState CE SE a b [] left ph lpc rpc false.
Definition writing_c : ctester imap :=
  ct_of imap l (c_of 2 [] (Some (CmCommand h1 c [] (CaWaitingForFragmentsSent None))) (NfLine 0) []) FSelect cc.
Definition returned_c : ctester imap := ct_of imap l (c_of 2 [] None (NfLine 0) [x41]) FIdle cc.
Definition writing_s (v : bytes) : stester imap := st_of imap o_unlimited v (s_of o_unlimited 1 [] (Some sm)) FSelect sc.
Definition returned_s : stester imap := st_of imap o_unlimited [] (s_of o_unlimited 1 [] None) FIdle sc.

Lemma both_write : trun CE SE t state2 [KPollL; KPollL; KPollR; KPollR] = at_ph writing_c (writing_s w) [] 2 1 1.
Proof.
  erewrite trun_cons.
  2:{ eapply poll_l; [reflexivity|reflexivity|reflexivity|reflexivity|].
      apply (cl_enqueue imap l c (login_dec_n n)). }
  erewrite trun_cons.
  2:{ eapply poll_l; [reflexivity|reflexivity|reflexivity|reflexivity|].
      apply (cl_start imap l c (login_x n) eq_refl (login_dec_n n) (login_enc n)). discriminate. }
  erewrite trun_cons.
  2:{ eapply poll_r; [reflexivity|reflexivity|reflexivity|reflexivity|].
      apply (sv_enqueue imap w st (status_dec_n n)). }
  erewrite trun_cons.
  2:{ eapply poll_r; [reflexivity|reflexivity|reflexivity|reflexivity|].
      apply (sv_start imap w st (status_enc n) x41 w' eq_refl). }
  reflexivity.
Qed.

Lemma write_some : forall a v left lpc m, 0 < m -> m < length v -> length left + m <= cap ->
  tstep CE SE t (at_ph a (writing_s v) left 2 lpc 1) (KWriteR m) =
  Some (at_ph a (writing_s (skipn m v)) (left ++ firstn m v) 2 lpc 1).
Proof.
  intros a v left lpc m H1 H2 H3.
  assert (L : length (firstn m v) = m) by (rewrite firstn_length; lia).
  destruct (firstn m v) as [|b bs] eqn:E; [cbn in L; lia|].
  erewrite (write_r CE SE t (at_ph a (writing_s v) left 2 lpc 1)); [|reflexivity|reflexivity| |reflexivity|exact E|].
  - rewrite L. cbn [ts_r at_ph].
    pose proof (sv_write imap st o_unlimited ltac:(discriminate) v m sc H1 H2) as Q.
    change (e_wrote SE (SiNext SxSent : e_ins SE) (writing_s v) m = (writing_s (skipn m v), VGoing)) in Q.
    rewrite Q. reflexivity.
  - unfold over. cbn. apply andb_false_r.
  - cbn [ts_left at_ph]. rewrite L. exact H3.
Qed.

Lemma write_all : forall a v left lpc, v <> [] -> length left + length v <= cap ->
  tstep CE SE t (at_ph a (writing_s v) left 2 lpc 1) (KWriteR (length v)) =
  Some (at_ph a returned_s (left ++ v) 2 lpc 2).
Proof.
  intros a v left lpc H1 H2. destruct v as [|b bs] eqn:Ev; [congruence|]. rewrite <- Ev in *.
  erewrite (write_r CE SE t (at_ph a (writing_s v) left 2 lpc 1)); [|reflexivity|reflexivity| |reflexivity| |].
  - rewrite <- Ev. cbn [ts_r at_ph].
    assert (H0 : 0 < length v) by (rewrite Ev; cbn; lia).
    pose proof (sv_written imap st o_unlimited ltac:(discriminate) v (length v) H0 eq_refl) as Q.
    change (e_wrote SE (SiNext SxSent : e_ins SE) (writing_s v) (length v) = (returned_s, VDone)) in Q.
    rewrite Q. reflexivity.
  - unfold over. cbn. apply andb_false_r.
  - cbn [ts_r at_ph e_out server_end writing_s st_of st_x x_f writing x_s x_wbuf].
    rewrite firstn_all. exact Ev.
  - cbn [ts_left at_ph]. rewrite <- Ev. exact H2.
Qed.

Lemma client_returns : forall b left rpc,
  tstep CE SE t (at_ph writing_c b (x41 :: left) 2 1 rpc) (KReadL 1) =
  Some (at_ph returned_c b left 2 2 rpc).
Proof.
  intros b left rpc.
  erewrite (read_l CE SE t (at_ph writing_c b (x41 :: left) 2 1 rpc)); [|reflexivity|reflexivity|reflexivity|reflexivity|reflexivity|].
  2:{ apply (cl_sent imap l c). }
  reflexivity.
Qed.

(** The server waits for room in the network. *)
Lemma hangs_full : cap + 1 < length w -> can_hang t.
Proof.
  intro H. exists (slowly ++ [KPollL; KPollL; KPollR; KPollR] ++ [KWriteR cap; KReadL 1; KWriteR 1]).
  pose proof (slowly_large cap n Hcap) as Sl. fold t in Sl. rewrite trun_app, Sl, trun_app, both_write.
  assert (F : firstn cap w = x41 :: tl (firstn cap w)).
  { destruct cap as [|k]; [lia|]. reflexivity. }
  erewrite trun_cons by (apply write_some; [lia|lia|cbn [length]; lia]). cbn [app]. rewrite F.
  erewrite trun_cons by apply client_returns.
  assert (L1 : length (tl (firstn cap w)) = cap - 1).
  { pose proof (firstn_length cap w) as L. rewrite F in L. cbn [length tl] in *. lia. }
  erewrite trun_cons.
  2:{ apply write_some; [lia| |lia]. rewrite skipn_length. lia. }
  cbn [trun]. split; [discriminate|]. split; [reflexivity|].
  eapply stuck; [reflexivity|reflexivity|reflexivity|reflexivity|reflexivity|reflexivity|reflexivity|].
  right. cbn [ts_left at_ph]. rewrite app_length, L1, firstn_length, skipn_length. change (tc_cap t) with cap. lia.
Qed.

(** The client has returned without writing its command. *)
Lemma hangs_after : forall ks,
  trun CE SE t (at_ph writing_c (writing_s w) [] 2 1 1) ks = at_ph returned_c returned_s w' 2 2 2 -> can_hang t.
Proof.
  intros ks H.
  exists (slowly ++ [KPollL; KPollL; KPollR; KPollR] ++ ks ++ [KNext; KPollL; KReadL (length w'); KPollR]).
  pose proof (slowly_large cap n Hcap) as Sl. fold t in Sl. rewrite trun_app, Sl, trun_app, both_write, trun_app, H. clear H.
  erewrite trun_cons.
  2:{ eapply next_step; [reflexivity|reflexivity|reflexivity|reflexivity]. }
  erewrite trun_cons.
  2:{ eapply poll_l; [reflexivity|reflexivity|reflexivity|reflexivity|].
      apply (cl_wait imap l w c (login_dec_n n) (login_enc n)); [discriminate|reflexivity]. }
  erewrite trun_cons.
  2:{ eapply read_l; [reflexivity|reflexivity|reflexivity|reflexivity| |].
      - cbn [ts_left left_did]. rewrite firstn_all. reflexivity.
      - apply (cl_status imap l w c st (status_dec_n n) (status_dec_res n) x41 w' (B "A1 OK " ++ long n)).
        + reflexivity.
        + unfold w, status_line. now rewrite app_assoc.
        + rewrite in_app_iff. intros [I|I]; [revert I; notin|].
          apply repeat_spec in I. discriminate. }
  erewrite trun_cons.
  2:{ eapply poll_r; [reflexivity|reflexivity|reflexivity|reflexivity|].
      apply (sv_wait imap l o_unlimited). discriminate. }
  cbn [trun]. split; [discriminate|]. split; [reflexivity|].
  eapply stuck; [reflexivity|reflexivity|reflexivity|reflexivity|reflexivity|reflexivity|reflexivity|].
  left. reflexivity.
Qed.

Lemma large_hangs : can_hang t.
Proof.
  assert (W : w = x41 :: w') by reflexivity.
  destruct (Nat.lt_ge_cases (cap + 1) (length w)) as [H|H]; [now apply hangs_full|].
  destruct (Nat.le_gt_cases (length w) cap) as [H1|H1].
  - apply (hangs_after [KWriteR (length w); KReadL 1]).
    erewrite trun_cons by (apply write_all; [discriminate|exact H1]). cbn [app]. rewrite W.
    erewrite trun_cons by apply client_returns. reflexivity.
  - apply (hangs_after [KWriteR cap; KReadL 1; KWriteR 1]).
    assert (F : firstn cap w = x41 :: firstn (cap - 1) w').
    { destruct cap as [|k]; [lia|]. rewrite W. cbn. now rewrite Nat.sub_0_r. }
    erewrite trun_cons by (apply write_some; [lia|lia|cbn [length]; lia]). cbn [app]. rewrite F.
    erewrite trun_cons by apply client_returns.
    assert (L1 : length (skipn cap w) = 1) by (rewrite skipn_length; lia).
    replace (KWriteR 1) with (KWriteR (length (skipn cap w))) by now rewrite L1.
    erewrite trun_cons.
    2:{ apply write_all.
        - intro E. rewrite E in L1. discriminate.
        - rewrite L1, firstn_length. lia. }
    assert (E : firstn (cap - 1) w' ++ skipn cap w = w').
    { apply (f_equal (@tl byte)) in F. cbn [tl] in F. rewrite <- F.
      destruct cap as [|k]; [lia|]. rewrite W. cbn [firstn skipn tl]. apply firstn_skipn. }
    cbn [trun]. rewrite E. reflexivity.
Qed.
End Large.
