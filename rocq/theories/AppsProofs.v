(** What the library guarantees at every point of a program, in terms of what the program sees. *)
From Coq Require Import List NArith Bool PeanoNat Lia.
From Verif Require Import Base Types Codec Handle Receive ClientSend Client ServerSend Server
  SpecFraming SpecClient SpecServer ClientInv ReceiveProofs ClientRecv ServerRecv ServerAbs ServerInv ClientThms ServerThms Stream StreamMachine
  StreamProofs StreamEvents StreamState SpecNet NetApp Apps.
Import ListNotations.
Local Open Scope list_scope.

Lemma filter_split : forall {A} (f : A -> bool) l a e b, filter f l = a ++ e :: b ->
  exists l1 l2, l = l1 ++ e :: l2 /\ filter f l1 = a /\ filter f l2 = b /\ f e = true.
Proof.
  intros A f l. induction l as [|x l IH]; intros a e b H; cbn in H.
  - destruct a; discriminate.
  - destruct (f x) eqn:F.
    + destruct a as [|y a]; injection H as -> H.
      * exists [], l. auto.
      * apply IH in H as (l1 & l2 & -> & E1 & E2 & E3). exists (y :: l1), l2. cbn. rewrite F, E1. auto.
    + apply IH in H as (l1 & l2 & -> & E1 & E2 & E3). exists (x :: l1), l2. cbn. now rewrite F.
Qed.

(** ** Client *)
Section Client.
Context (K : Codecs).
Notation CM := (client_machine K).

(** [A] is what is seen of a run of a new client. *)
Definition creached (relaxed : bool) (g : hgen) (A : list clog) : Prop :=
  exists ops c lc, ran K relaxed g ops c lc /\ fc lc = A.

Lemma c_step_shown : forall c o c' l l1 e l2, client_step K c o = (Some c', l) ->
  l = l1 ++ e :: l2 -> c_shown e = true -> l2 = [].
Proof.
  intros c o c' l l1 e l2 S E Hs.
  destruct o; cbn -[client_next client_enqueue_command client_enqueue_input
    client_set_authenticate_data client_set_idle_done] in S.
  1-4: match type of S with context [match ?x with _ => _ end] => destruct x as [[]|] || destruct x end;
    try discriminate; injection S as _ <-; destruct l1 as [|? [|? ?]]; try discriminate; now injection E.
  destruct (client_next K c) as [[c1 gs] r]. destruct (c_is_panic r); [discriminate|].
  injection S as _ <-. destruct l2 as [|y l2]; [reflexivity|exfalso].
  assert (Hin : In e (map ClRx gs)).
  { destruct (exists_last (l := y :: l2)) as (l3 & z & E3); [discriminate|]. rewrite E3 in E.
    rewrite app_comm_cons, app_assoc in E. apply app_inj_tail in E as [-> _].
    apply in_or_app. right. now left. }
  apply in_map_iff in Hin as (m & <- & _). discriminate.
Qed.

Lemma c_cut : forall ops c0 c l l1 e l2, client_run K c0 ops = (Some c, l) ->
  l = l1 ++ e :: l2 -> c_shown e = true ->
  exists ops1 c1, client_run K c0 ops1 = (Some c1, l1 ++ [e]).
Proof.
  induction ops as [|o ops IH]; intros c0 c l l1 e l2 R E Hs; cbn [client_run] in R.
  - injection R as _ <-. destruct l1; discriminate.
  - destruct (client_step K c0 o) as [[c1|] la] eqn:S; [|discriminate].
    destruct (client_run K c1 ops) as [oc lb] eqn:R2. injection R as -> <-.
    apply app_cons_split in E as [(k & E & _)|(k & E & E2)].
    + rewrite (c_step_shown _ _ _ _ _ _ _ S E Hs) in E. subst la.
      exists [o], c1. cbn [client_run]. rewrite S. now rewrite app_nil_r.
    + destruct (IH _ _ _ _ _ _ R2 E2 Hs) as (ops1 & c2 & R3). exists (o :: ops1), c2.
      cbn [client_run]. rewrite S, R3, E. now rewrite app_assoc.
Qed.

Lemma creached_cut : forall relaxed g A B, creached relaxed g (A ++ B) -> creached relaxed g A.
Proof.
  intros relaxed g A B H. destruct A as [|x A] using rev_ind.
  - exists [], (client_new g relaxed), []. now split.
  - clear IHA. rewrite <- app_assoc in H. destruct H as (ops & c & lc & R & E).
    apply filter_split in E as (l1 & l2 & -> & E1 & _ & Hs).
    destruct (c_cut _ _ _ _ _ _ _ R eq_refl Hs) as (ops1 & c1 & R1).
    exists ops1, c1, (l1 ++ [x]). split; [exact R1|]. rewrite filter_app. cbn. now rewrite Hs, E1.
Qed.

(** Calls return results of their own kind. *)
Definition ctyped (o : capp) (r : clog) : Prop :=
  match o, r with
  | CaEnqueueCommand c, ClEnqueue c' _ => c' = c
  | CaSetAuthenticateData d, ClSetAuth d' _ => d' = d
  | CaSetIdleDone, ClSetDone _ => True
  | _, _ => False
  end.

Lemma call_entries_in : forall {M} (l : list (xlog M)) o r, In (XCall o r) l -> In (XCall o r) (call_entries l).
Proof.
  intros M l o r H. induction l as [|x l IH]; [contradiction|].
  destruct H as [->|H]; [now left|]. destruct x; cbn; auto.
Qed.

Lemma view_typed : forall lc (l : list (xlog CM)), flat_map client_view lc = call_entries l ->
  forall (o : capp) r, In (@XCall CM o r) l -> ctyped o r.
Proof.
  intros lc l E o r Hin. apply call_entries_in in Hin. rewrite <- E in Hin.
  apply in_flat_map in Hin as (e & _ & Hin).
  destruct e as [| | | | |[]|]; cbn in Hin; try contradiction; destruct Hin as [H|[]];
    try discriminate; injection H as <- <-; cbn; auto.
Qed.

Lemma c_stream_reached : forall relaxed g T fuel s f acts x (l : list (xlog CM)),
  xrun T CM fuel (@XState T CM s (client_new g relaxed) f) acts = (x, l) ->
  creached relaxed g (flat_map client_app l) /\
  forall (o : capp) r, In (@XCall CM o r) l -> ctyped o r.
Proof.
  intros relaxed g T fuel s f acts x l E.
  destruct (client_in_stream _ _ _ _ _ _ _ _ _ _ E) as (lc & R & V). split.
  - exists (map client_cop (calls l)), (x_m x), lc. split; [exact R|].
    symmetry. apply client_app_shown; [eapply xrun_paired; exact E|exact V].
  - eapply view_typed; eauto.
Qed.

(** A client without a stream. *)
Lemma c_alone_reached : forall relaxed g cs c (l : list (xlog CM)),
  call_run CM (client_new g relaxed) cs = Some (c, call_entries l) ->
  creached relaxed g (flat_map c_ev l) /\
  forall (o : capp) r, In (@XCall CM o r) l -> ctyped o r.
Proof.
  intros relaxed g cs c l E. apply client_call_run in E as (lc & R & V). split.
  - exists (map client_cop cs), c, lc. split; [exact R|].
    assert (E2 : flat_map c_ev (call_entries l) = flat_map c_ev l).
    { clear. induction l as [|[] l IH]; cbn; now rewrite ?IH. }
    rewrite <- E2, <- V. clear.
    induction lc as [|e lc IH]; [reflexivity|]. cbn [flat_map]. rewrite flat_map_app, <- IH.
    destruct e as [| | | | |[]|]; reflexivity.
  - eapply view_typed; eauto.
Qed.

Section Facts.
Context (relaxed : bool) (g : hgen) (A : list clog) (H : creached relaxed g A).

Lemma r_resolved : forall k t, nth_error (terminals A) k = Some t ->
  exists h cm, nth_error (enqueued A) k = Some (h, cm) /\ resolves h cm t.
Proof.
  destruct H as (ops & c & lc & R & <-). intros k t E. rewrite shown_terminals in E.
  rewrite shown_enqueued. eapply resolved_once; eauto.
Qed.

Lemma shown_last_exch : forall l, last_exch (fc l) = last_exch l.
Proof.
  intro l. unfold last_exch, cur_seg. now rewrite shown_terminals, shown_segment, shown_exchange.
Qed.

(** The exchange of the oldest unresolved command, and those that are over. *)
Lemma shown_seg : forall k l, exchange (segment k (fc l)) = exchange (segment k l).
Proof. intros k l. now rewrite shown_segment, shown_exchange. Qed.

Lemma r_current :
  match current A with
  | Some (h, cm) => exists bs n, conversing K h cm bs (exchange (cur_seg A)) n
  | None => exchange (cur_seg A) = []
  end.
Proof.
  destruct H as (ops & c & lc & R & <-). unfold current, cur_seg.
  rewrite shown_enqueued, shown_terminals, shown_seg.
  destruct (in_order _ _ _ _ _ _ R) as (_ & Hle & H1 & H2).
  destruct (nth_error (enqueued lc) (length (terminals lc))) as [[h cm]|] eqn:E.
  - destruct (H1 _ _ _ E) as (_ & H3 & _). eauto.
  - apply nth_error_None in E. apply H2. now apply Nat.le_antisymm.
Qed.

Lemma r_done : forall k t, nth_error (terminals A) k = Some t ->
  exists h cm, nth_error (enqueued A) k = Some (h, cm) /\
    exists bs n, conversation K h cm bs (exchange (segment k A)) n t.
Proof.
  destruct H as (ops & c & lc & R & <-). intros k t E. rewrite shown_terminals in E.
  rewrite shown_enqueued, shown_seg.
  destruct (done_conversation _ _ _ _ _ _ R k t E) as (h & cm & E1 & E2). eauto 6.
Qed.

Lemma r_set_auth : forall A0 d r, A = A0 ++ [ClSetAuth d r] ->
  r = match last_exch A0 with Some (XCont h _) => inl h | _ => inr d end.
Proof.
  intros A0 d r E. destruct H as (ops & c & lc & R & F). rewrite E in F.
  apply filter_split in F as (l1 & l2 & F & <- & _). rewrite shown_last_exch.
  eapply set_auth_iff; [exact R|exact F].
Qed.

Lemma r_set_done : forall A0 r, A = A0 ++ [ClSetDone r] ->
  r = match last_exch A0 with Some (XAccepted h _) => Some h | _ => None end.
Proof.
  intros A0 r E. destruct H as (ops & c & lc & R & F). rewrite E in F.
  apply filter_split in F as (l1 & l2 & F & <- & _). rewrite shown_last_exch.
  eapply set_done_iff; [exact R|exact F].
Qed.
End Facts.
End Client.

(** ** Server *)
Section Server.
Context (K : Codecs).
Notation SM := (server_machine K).

Definition sreached (g : hgen) (o : soptions) (gr : greeting) (A : list slog) : Prop :=
  exists ops s ls, sran K g o gr ops s ls /\ fs ls = A.

Lemma s_step_shown : forall c o c' l l1 e l2, server_step K c o = (Some c', l) ->
  l = l1 ++ e :: l2 -> s_shown e = true -> l2 = [].
Proof.
  intros c o c' l l1 e l2 S E Hs.
  destruct o; cbn -[server_next server_enqueue_response server_enqueue_input
    server_authenticate_continue server_authenticate_finish server_idle_accept server_idle_reject] in S.
  1-6: match type of S with context [match ?x with _ => _ end] => destruct x as [[]|] || destruct x end;
    try discriminate; injection S as _ <-; destruct l1 as [|? [|? ?]]; try discriminate; now injection E.
  destruct (server_next K c) as [[c1 gs] r]. destruct (s_is_panic r); [discriminate|].
  injection S as _ <-. destruct l2 as [|y l2]; [reflexivity|exfalso].
  assert (Hin : In e (map SlRx gs)).
  { destruct (exists_last (l := y :: l2)) as (l3 & z & E3); [discriminate|]. rewrite E3 in E.
    rewrite app_comm_cons, app_assoc in E. apply app_inj_tail in E as [-> _].
    apply in_or_app. right. now left. }
  apply in_map_iff in Hin as (m & <- & _). discriminate.
Qed.

Lemma s_cut : forall ops c0 c l l1 e l2, server_run K c0 ops = (Some c, l) ->
  l = l1 ++ e :: l2 -> s_shown e = true ->
  exists ops1 c1, server_run K c0 ops1 = (Some c1, l1 ++ [e]).
Proof.
  induction ops as [|o ops IH]; intros c0 c l l1 e l2 R E Hs; cbn [server_run] in R.
  - injection R as _ <-. destruct l1; discriminate.
  - destruct (server_step K c0 o) as [[c1|] la] eqn:S; [|discriminate].
    destruct (server_run K c1 ops) as [oc lb] eqn:R2. injection R as -> <-.
    apply app_cons_split in E as [(k & E & _)|(k & E & E2)].
    + rewrite (s_step_shown _ _ _ _ _ _ _ S E Hs) in E. subst la.
      exists [o], c1. cbn [server_run]. rewrite S. now rewrite app_nil_r.
    + destruct (IH _ _ _ _ _ _ R2 E2 Hs) as (ops1 & c2 & R3). exists (o :: ops1), c2.
      cbn [server_run]. rewrite S, R3, E. now rewrite app_assoc.
Qed.

Lemma sreached_cut : forall g o gr A B, sreached g o gr (A ++ B) -> sreached g o gr A.
Proof.
  intros g o gr A B H. destruct A as [|x A] using rev_ind.
  - exists [], (server_new g o gr), []. now split.
  - clear IHA. rewrite <- app_assoc in H. destruct H as (ops & c & lc & R & E).
    apply filter_split in E as (l1 & l2 & -> & E1 & _ & Hs).
    destruct (s_cut _ _ _ _ _ _ _ R eq_refl Hs) as (ops1 & c1 & R1).
    exists ops1, c1, (l1 ++ [x]). split; [exact R1|]. rewrite filter_app. cbn. now rewrite Hs, E1.
Qed.

Definition styped (o : sapp) (r : slog) : Prop :=
  match o, r with
  | SaEnqueue x, SlEnqueue x' _ => x' = x
  | SaAuthenticateContinue q, SlAuthContinue q' _ => q' = q
  | SaAuthenticateFinish t, SlAuthFinish t' _ => t' = t
  | SaIdleAccept q, SlIdleAccept q' _ => q' = q
  | SaIdleReject t, SlIdleReject t' _ => t' = t
  | _, _ => False
  end.

Lemma sview_typed : forall ls (l : list (xlog SM)), flat_map server_view ls = call_entries l ->
  forall (o : sapp) r, In (@XCall SM o r) l -> styped o r.
Proof.
  intros lc l E o r Hin. apply call_entries_in in Hin. rewrite <- E in Hin.
  apply in_flat_map in Hin as (e & _ & Hin).
  destruct e as [| | | | | | |[]|]; cbn in Hin; try contradiction; destruct Hin as [H|[]];
    try discriminate; injection H as <- <-; cbn; auto.
Qed.

Lemma s_stream_reached : forall g o gr T fuel s f acts x (l : list (xlog SM)),
  xrun T SM fuel (@XState T SM s (server_new g o gr) f) acts = (x, l) ->
  sreached g o gr (flat_map server_app l) /\
  forall (p : sapp) r, In (@XCall SM p r) l -> styped p r.
Proof.
  intros g o gr T fuel s f acts x l E.
  destruct (server_in_stream _ _ _ _ _ _ _ _ _ _ _ E) as (lc & R & V). split.
  - exists (map server_sop (calls l)), (x_m x), lc. split; [exact R|].
    symmetry. apply server_app_shown; [eapply xrun_paired; exact E|exact V].
  - eapply sview_typed; eauto.
Qed.

Section SFacts.
Context (g : hgen) (o : soptions) (gr : greeting) (A : list slog) (H : sreached g o gr A).

Lemma mode_hidden : forall m e, s_shown e = false -> smode_step m e = m.
Proof. intros m e. destruct e as [| | | | | | |[]|]; cbn; congruence. Qed.
Lemma shown_smode : forall l, smode (fs l) = smode l.
Proof. intro l. unfold smode. apply shown_fold. apply mode_hidden. Qed.

(** Messages are reported only while they are expected. *)
Lemma r_report_mode : forall A0 e, A = A0 ++ [SlNext (IEvent e)] ->
  match e with
  | SeAuthenticateDataReceived _ => smode A0 = ExAuthenticateData
  | SeIdleDoneReceived => smode A0 = ExIdleDone
  | SeCommandReceived _ | SeCommandAuthenticateReceived _ | SeIdleCommandReceived _ =>
      smode A0 = ExCommand
  | SeGreetingSent _ | SeResponseSent _ _ => True
  end.
Proof.
  intros A0 e E. destruct H as (ops & c & lc & R & F). rewrite E in F.
  apply filter_split in F as (l1 & l2 & F & <- & _). rewrite shown_smode.
  destruct (is_report (IEvent e)) eqn:Er; [|destruct e; try exact I; discriminate].
  destruct (s_reports _ _ _ _ _ _ _ R _ _ _ F Er) as (l0 & raw & v & -> & Ev).
  rewrite <- app_assoc in F. cbn in F.
  destruct (s_frames _ _ _ _ _ _ _ R _ _ _ _ F) as (Fr & _ & _).
  rewrite smode_app. cbn.
  destruct v as [cm|d| | | | |]; cbn in Ev; try discriminate; injection Ev as ->; destruct Fr as [Fr _];
    unfold sframe in Fr; try unfold command_event; try destruct (cbody cm);
    destruct (smode l0); cbn in Fr; tauto.
Qed.

Lemma r_auth_continue : forall A0 q r, A = A0 ++ [SlAuthContinue q r] ->
  call_result (expected_eqb (smode A0) ExAuthenticateData) q r.
Proof.
  intros A0 q r E. destruct H as (ops & c & lc & R & F). rewrite E in F.
  apply filter_split in F as (l1 & l2 & F & <- & _). rewrite shown_smode.
  eapply s_auth_continue; [exact R|exact F].
Qed.
Lemma r_auth_finish : forall A0 q r, A = A0 ++ [SlAuthFinish q r] ->
  call_result (expected_eqb (smode A0) ExAuthenticateData) q r.
Proof.
  intros A0 q r E. destruct H as (ops & c & lc & R & F). rewrite E in F.
  apply filter_split in F as (l1 & l2 & F & <- & _). rewrite shown_smode.
  eapply s_auth_finish; [exact R|exact F].
Qed.
Lemma r_idle_accept : forall A0 q r, A = A0 ++ [SlIdleAccept q r] ->
  call_result (expected_eqb (smode A0) ExIdleAccept) q r.
Proof.
  intros A0 q r E. destruct H as (ops & c & lc & R & F). rewrite E in F.
  apply filter_split in F as (l1 & l2 & F & <- & _). rewrite shown_smode.
  eapply s_idle_accept; [exact R|exact F].
Qed.
Lemma r_idle_reject : forall A0 q r, A = A0 ++ [SlIdleReject q r] ->
  call_result (expected_eqb (smode A0) ExIdleAccept) q r.
Proof.
  intros A0 q r E. destruct H as (ops & c & lc & R & F). rewrite E in F.
  apply filter_split in F as (l1 & l2 & F & <- & _). rewrite shown_smode.
  eapply s_idle_reject; [exact R|exact F].
Qed.

(** Responses are reported as sent in the order in which they were enqueued. *)
Lemma r_sent : exists rest,
  SeGreetingSent gr :: sent_events (flat_map (scheduled_by o) A) =
  filter is_sent_event (sevents A) ++ rest.
Proof.
  destruct H as (ops & c & lc & R & <-). rewrite shown_sevents.
  destruct (s_sent_list _ _ _ _ _ _ _ R) as (k & _ & ->).
  assert (X : SeGreetingSent gr :: sent_events (flat_map (scheduled_by o) (fs lc)) =
    sent_events (scheduled o gr lc)).
  { change (scheduled o gr lc) with ([SmGreeting gr] ++ flat_map (scheduled_by o) lc).
    unfold sent_events. rewrite flat_map_app. cbn [flat_map sent_event opt_list app]. f_equal. clear.
    induction lc as [|e lc IH]; [reflexivity|].
    assert (Y : s_shown e = false -> sent_events (scheduled_by o e) = []).
    { intro Hs. destruct e as [| | | | | |[raw []|i]|[]|]; try discriminate Hs; try reflexivity; cbn;
        unfold when_sync; destruct (cl_mode _); reflexivity. }
    cbn [filter flat_map]. rewrite flat_map_app, <- IH. destruct (s_shown e) eqn:Es.
    - cbn [flat_map]. now rewrite flat_map_app.
    - unfold sent_events in Y. now rewrite Y. }
  rewrite X. exists (sent_events (skipn k (scheduled o gr lc))).
  unfold sent_events. rewrite <- flat_map_app. now rewrite firstn_skipn.
Qed.

(** ** The first event is that the greeting was sent *)
Definition told (r : s_ires) : bool :=
  match r with IEvent _ | IError _ => true | _ => false end.

Lemma r_greeting_first : filter told (sresults A) = [] \/
  exists rs, filter told (sresults A) = IEvent (SeGreetingSent gr) :: rs.
Proof.
  destruct H as (ops & c & lc & R & <-).
  assert (X : forall l, filter told (sresults (fs l)) = filter told (sresults l)).
  { clear. induction l as [|e l IH]; [reflexivity|].
    destruct e as [| | | | | | |[]|]; cbn; now rewrite ?IH. }
  rewrite X. clear X.
  destruct (server_run_new K o g gr ops c lc R) as (a & S & _).
  enough (G : (filter told (sresults lc) = [] /\
      ((ss_current (x_send a) = None /\ exists q, ss_queue (x_send a) = SmGreeting gr :: q) \/
       ss_current (x_send a) = Some (SmGreeting gr))) \/
    exists rs, filter told (sresults lc) = IEvent (SeGreetingSent gr) :: rs) by tauto.
  clear c R H. remember (xnew g gr) as a0 eqn:E0. revert E0.
  induction S as [a|a l a1 l1 a2 S IH S1]; intros ->.
  - left. split; [reflexivity|]. left. split; [reflexivity|]. eexists. reflexivity.
  - assert (Y : forall a b, filter told (sresults (a ++ b)) = filter told (sresults a) ++ filter told (sresults b)).
    { clear. intros a b. rewrite <- filter_app. f_equal.
      induction a as [|[] a IH]; cbn; now rewrite ?IH. }
    rewrite Y. destruct (IH eq_refl) as [[E Hq]|(rs & E)]; [|right; rewrite E; cbn; eauto].
    rewrite E. cbn [app].
    assert (Q : quiet (x_send a1) = None).
    { unfold quiet. destruct Hq as [[-> (q & ->)]| ->]; reflexivity. }
    destruct S1 as [a p a' e C|a m q C1 C2|a m e C1 C2|a s1 C ?|a s1 w l1 rest i n C|a s1 raw rest v C|a s1 raw rest C];
      try (rewrite Q in C; discriminate).
    + left. destruct p; cbn in C; try (destruct (x_mode a)); try discriminate; injection C as <- <-;
        (split; [reflexivity|]); cbn; try exact Hq;
        (destruct Hq as [[H1 (q0 & H2)]|H1]; [left|right; exact H1]); cbn; rewrite H1, H2;
        (split; [reflexivity|]); cbn; eauto.
    + left. split; [reflexivity|]. right. cbn. destruct Hq as [[_ (q0 & H2)]|H1]; congruence.
    + right. destruct Hq as [[H1 _]|H1]; [congruence|]. rewrite H1 in C1. injection C1 as <-.
      injection C2 as <-. cbn. eauto.
Qed.
End SFacts.
End Server.

(** ** Reasoning about programs *)
Section Rule.
Context {M : machine} (P : program M).
(** What the program sees, as entries. *)
Context (app : xlog M -> list (m_ret M)) (ev : m_ev M -> m_ret M).
Hypothesis app_call : forall o r, app (XCall o r) = [r].
Hypothesis app_event : forall e, app (XRet (RetEvent e)) = [ev e].
Hypothesis app_inside : forall e, inside e = true \/ e = XCancel \/ e = XPanic \/ e = XHang -> app e = [].
(** What it can see. *)
Context (reached : list (m_ret M) -> Prop) (typed : m_op M -> m_ret M -> Prop).
Hypothesis reached_cut : forall A B, reached (A ++ B) -> reached A.

(** [J p A]: holds where the program waits; [G A]: always; [Q A]: when it returns. *)
Context (J : pr_st P -> list (m_ret M) -> Prop) (G Q : list (m_ret M) -> Prop).

Fixpoint wp (b : body M (pr_st P)) (A : list (m_ret M)) : Prop :=
  match b with
  | Again p => J p A
  | Return => Q A
  | Fails => False
  | Does o k => forall r, typed o r -> reached (A ++ [r]) -> G (A ++ [r]) /\ wp (k r) (A ++ [r])
  end.

Definition pinv (st : pstate P) (A : list (m_ret M)) : Prop :=
  match st with
  | PAt p => J p A
  | PIn o k => wp (Does o k) A
  | PEnd EndReturned => Q A
  | PEnd EndFailed => False
  | PEnd (EndError r) => exists p A0, J p A0 /\ A = A0 ++ app (XRet r)
  | PEnd EndPanicked => True
  end.

Lemma wp_resume : forall b A, wp b A -> pinv (resume b) A.
Proof. intros b A H. destruct b; exact H. Qed.

Hypothesis start : J (pr_start P) [] /\ G [].
Hypothesis on_event : forall p A coin e, J p A -> G A -> reached (A ++ [ev e]) ->
  G (A ++ [ev e]) /\ wp (pr_event P p coin e) (A ++ [ev e]).
Hypothesis on_error : forall p A r, (forall e, r <> RetEvent e) -> J p A -> G A ->
  reached (A ++ app (XRet r)) -> G (A ++ app (XRet r)).
Hypothesis on_line : forall p A x b, J p A -> G A -> reached A -> pr_line P p x = Some b -> wp b A.

Lemma program_rule : forall l st, psteps P l st -> reached (flat_map app l) ->
  (forall o r, In (XCall o r) l -> typed o r) -> pinv st (flat_map app l) /\ G (flat_map app l).
Proof.
  intros l st S. induction S as [|l st e st' S IH S1]; intros R Ty.
  - exact start.
  - rewrite flat_map_app in *. cbn [flat_map] in *. rewrite app_nil_r in *.
    destruct IH as [I HG]; [eapply reached_cut; exact R|intros; apply Ty, in_or_app; now left|].
    destruct S1 as [p e Hi|p coin e|p r Hr|p x b Hb|p x o k r Hb|o k r|p e He|o k]; cbn [pinv] in I.
    + rewrite app_inside by (now left). rewrite app_nil_r. now split.
    + rewrite app_event in *. destruct (on_event p _ coin e I HG R) as [G1 W]. split; [now apply wp_resume|exact G1].
    + split; [|eauto]. cbn. eauto.
    + rewrite app_inside in * by tauto. rewrite app_nil_r in *. split; [|exact HG].
      apply wp_resume. eapply on_line; eauto.
    + rewrite app_call in *. assert (W : wp (Does o k) (flat_map app l)).
      { eapply on_line; eauto. }
      cbn in W. destruct (W r) as [G1 W1]; [apply Ty, in_or_app; right; now left|exact R|].
      split; [now apply wp_resume|exact G1].
    + rewrite app_call in *. destruct (I r) as [G1 W1]; [apply Ty, in_or_app; right; now left|exact R|].
      split; [now apply wp_resume|exact G1].
    + rewrite app_inside by tauto. rewrite app_nil_r. now split.
    + rewrite app_inside by tauto. rewrite app_nil_r. now split.
Qed.
End Rule.

Section Rules.
Context (K : Codecs).
Notation CM := (client_machine K).
Notation SM := (server_machine K).

Definition cev (e : cevent) : clog := ClNext (IEvent e).
Definition sev (e : sevent) : slog := SlNext (IEvent e).

Lemma client_rule : forall (P : program CM) relaxed g J G Q,
  J (pr_start P) [] /\ G [] ->
  (forall p A coin e, J p A -> G A -> creached K relaxed g (A ++ [cev e]) ->
     G (A ++ [cev e]) /\ wp P (creached K relaxed g) ctyped J G Q (pr_event P p coin e) (A ++ [cev e])) ->
  (forall p A r, (forall e, r <> RetEvent e) -> J p A -> G A ->
     creached K relaxed g (A ++ client_app (XRet r : xlog CM)) -> G (A ++ client_app (XRet r : xlog CM))) ->
  (forall p A x b, J p A -> G A -> creached K relaxed g A -> pr_line P p x = Some b ->
     wp P (creached K relaxed g) ctyped J G Q b A) ->
  forall T fuel s f acts x (l : list (xlog CM)) st,
  xrun T CM fuel (@XState T CM s (client_new g relaxed) f) acts = (x, l) -> psteps P l st ->
  pinv P client_app (creached K relaxed g) ctyped J G Q st (flat_map client_app l) /\
  G (flat_map client_app l).
Proof.
  intros P relaxed g J G Q H1 H2 H3 H4 T fuel s f acts x l st R S.
  destruct (c_stream_reached _ _ _ _ _ _ _ _ _ _ R) as [Re Ty].
  revert Re Ty. revert S. apply (program_rule P client_app cev); auto.
  - intros e [H|[->|[->| ->]]]; [|reflexivity..]. destruct e; try discriminate; reflexivity.
  - intros A B. apply creached_cut.
Qed.

Lemma server_rule : forall (P : program SM) g o gr J G Q,
  J (pr_start P) [] /\ G [] ->
  (forall p A coin e, J p A -> G A -> sreached K g o gr (A ++ [sev e]) ->
     G (A ++ [sev e]) /\ wp P (sreached K g o gr) styped J G Q (pr_event P p coin e) (A ++ [sev e])) ->
  (forall p A r, (forall e, r <> RetEvent e) -> J p A -> G A ->
     sreached K g o gr (A ++ server_app (XRet r : xlog SM)) -> G (A ++ server_app (XRet r : xlog SM))) ->
  (forall p A x b, J p A -> G A -> sreached K g o gr A -> pr_line P p x = Some b ->
     wp P (sreached K g o gr) styped J G Q b A) ->
  forall T fuel s f acts x (l : list (xlog SM)) st,
  xrun T SM fuel (@XState T SM s (server_new g o gr) f) acts = (x, l) -> psteps P l st ->
  pinv P server_app (sreached K g o gr) styped J G Q st (flat_map server_app l) /\
  G (flat_map server_app l).
Proof.
  intros P g o gr J G Q H1 H2 H3 H4 T fuel s f acts x l st R S.
  destruct (s_stream_reached _ _ _ _ _ _ _ _ _ _ _ R) as [Re Ty].
  revert Re Ty. revert S. apply (program_rule P server_app sev); auto.
  - intros e [H|[->|[->| ->]]]; [|reflexivity..]. destruct e; try discriminate; reflexivity.
  - intros A B. apply sreached_cut.
Qed.
End Rules.
