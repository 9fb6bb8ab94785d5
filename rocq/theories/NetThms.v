(** What the applications of two connected streams see. *)
From Coq Require Import List NArith Bool PeanoNat Lia.
From Verif Require Import Base Types Codec Handle Receive ServerSend ClientSend Client Server
  SpecFraming SpecClient SpecServer ReceiveProofs ClientAbs ServerAbs System SystemAbs SpecSystem
  SpecSystemLive SystemLog SystemResp SystemServer SystemThms SystemGreet SystemLive SystemSettle
  Stream StreamMachine SpecStream StreamProofs StreamThms StreamEvents
  StreamState StreamServer Net SpecNet NetProofs NetSystem NetApp NetRest.
From Verif Require ClientInv ServerInv ServerProps.
Import ListNotations.

Section Own.
Context (K : Codecs) (o : soptions) (gr : greeting).

(** Responses of the application, and rejections, among messages. *)
Definition app_part (ms : list smsg) : list response :=
  flat_map (fun m => match m with SmResponse (Some _) r => [r] | _ => [] end) ms.
Definition own_part (ms : list smsg) : list response :=
  flat_map (fun m => match m with SmResponse None (RCcr _) => [] | SmResponse None r => [r] | _ => [] end) ms.

Lemma parts_visible : forall ms, interleaved (app_part ms) (own_part ms) (visible ms).
Proof.
  induction ms as [|m ms IH]; [constructor|].
  destruct m as [g|[h|] r]; cbn; [exact IH|now constructor|].
  destruct r; cbn; try exact IH; now constructor.
Qed.

Lemma app_scheduled : forall l, app_part (scheduled o gr l) = flat_map accepted l.
Proof.
  intro l. unfold scheduled. cbn. induction l as [|e l IH]; [reflexivity|]. cbn [flat_map].
  unfold app_part in *. rewrite flat_map_app, IH. f_equal. clear.
  destruct e as [r h|b|q [h|]|t [h|]|q [h|]|t [h|]|[raw v|i]|r|]; try reflexivity.
  - destruct v; try reflexivity. cbn. unfold when_sync. now destruct (cl_mode _).
  - cbn. unfold when_sync. now destruct (cl_mode i).
Qed.

Lemma lits_fitb : forall fs, lits_fit o fs <-> forallb (lit_fitsb o) fs = true.
Proof.
  intro fs. unfold lits_fit. rewrite forallb_forall, Forall_forall.
  split; intros H f Hf; specialize (H f Hf); destruct f; cbn in *; auto; now apply N.leb_le.
Qed.

Lemma own_scheduled : forall l rd, Forall2 (read_as K o) (staken l) rd ->
  own_part (scheduled o gr l) = flat_map (rejection K o) rd.
Proof.
  intro l. unfold scheduled. cbn. induction l as [|e l IH]; intros rd H.
  - now inversion H.
  - cbn [flat_map]. unfold own_part in *. rewrite flat_map_app.
    destruct e as [r h|b|q [h|]|t [h|]|q [h|]|t [h|]|[raw v|i]|r|]; try (now apply IH).
    + cbn in H. inversion H as [|? q ? rd' H1 H2]; subst.
      cbn [flat_map]. rewrite (IH _ H2). f_equal. clear - H1.
      inversion H1 as [c Hf|c pre d post Ec Hp Hd| |]; subst; try reflexivity.
      * cbn. now apply lits_fitb in Hf as ->.
      * cbn. rewrite Ec, forallb_app. cbn. apply N.leb_gt in Hd. rewrite Hd.
        now rewrite andb_false_r.
    + cbn. unfold when_sync. destruct (cl_mode i); cbn; now apply IH.
Qed.

Lemma own_none : forall ms, ServerInv.count_internal ms = 0 -> own_part ms = [].
Proof.
  induction ms as [|m ms IH]; [reflexivity|]. unfold ServerInv.count_internal. cbn.
  destruct m as [g|[h|] r]; cbn; try exact IH. discriminate.
Qed.

Lemma told_events : forall es,
  flat_map (fun e => match e with SeResponseSent _ r => [r] | _ => [] end) es =
  flat_map (fun e => match e with SeResponseSent _ r => [r] | _ => [] end) (filter is_sent_event es).
Proof. induction es as [|[] es IH]; cbn; auto. now rewrite IH. Qed.

Lemma told_parts : forall ms,
  flat_map (fun e => match e with SeResponseSent _ r => [r] | _ => [] end) (sent_events ms) =
  app_part ms.
Proof.
  induction ms as [|[g|[h|] r] ms IH]; [reflexivity|exact IH| |exact IH].
  cbn. f_equal. exact IH.
Qed.
End Own.

Section Thms.
Context (K : Codecs) (relaxed : bool) (o : soptions) (gc gs : hgen) (gr : greeting) (T1 T2 : tls).
Notation CM := (client_machine K).
Notation SM := (server_machine K).
Notation talk := (@talk K relaxed o gc gs gr T1 T2).
Context (z : net T1 T2 CM SM) (L : list (nlog CM SM)).
Hypothesis Talk : talk z L.

(** The direct connection does the same. *)
Lemma net_direct : exists acts y l, yran K relaxed gc gs o gr acts y l /\
  same_talk L (x_m (n_l z)) (x_m (n_r z)) y l /\
  clogs (app_log L) = clogs (fy l) /\ slogs (app_log L) = slogs (fy l).
Proof.
  pose proof (talk_has _ _ _ _ _ _ _ _ _ _ Talk) as F.
  destruct (talk_joint _ _ _ _ _ _ _ _ _ _ F) as (acts & y & l & Y & St).
  exists acts, y, l. split; [exact Y|]. split; [exact St|]. eapply same_shown; eauto.
Qed.

(** The responses that were sent were given before. *)
Lemma net_told : exists rest, given (rights L) = told_sent (slogs (app_log L)) ++ rest.
Proof.
  destruct net_direct as (acts & y & l & Y & _ & E1 & E2).
  destruct (sys_run_new K relaxed o gc gs gr _ _ _ Y) as (zz & St & _).
  pose proof (ServerInv.sinv_steps K o gs gr _ _ (zsteps_xsteps K relaxed o _ _ _ St)) as I1.
  destruct (ServerInv.si_queue _ _ _ _ _ I1) as (dn & D1 & _ & D3).
  exists (app_part (ServerInv.pending (x_send (z_x zz)))).
  rewrite <- given_app_log, <- slogs_app_log, E2, shown_slogs, shown_accepted, <- (app_scheduled o gr), D1.
  unfold app_part at 1. rewrite flat_map_app. f_equal.
  unfold told_sent. rewrite shown_sevents, told_events, D3, told_parts. reflexivity.
Qed.

Hypothesis Ord : orderly K relaxed o gr (app_log L).
Hypothesis Own : own_roundtrips K relaxed o (app_log L).

Lemma net_lift : exists acts y l, yran K relaxed gc gs o gr acts y l /\ orderly K relaxed o gr l /\
  clogs (app_log L) = clogs (fy l) /\ slogs (app_log L) = slogs (fy l).
Proof.
  destruct net_direct as (acts & y & l & Y & St & E1 & E2).
  exists acts, y, l. split; [exact Y|]. split; [|now split]. eapply lift_orderly; eauto.
Qed.

(** The greeting is reported at most once. *)
Lemma net_greeted : exists rest, [gr] = greetings (events (clogs (app_log L))) ++ rest.
Proof.
  destruct net_lift as (acts & y & l & Y & O & E1 & E2).
  rewrite E1, shown_clogs, shown_events.
  exact (greeted_once K relaxed o gc gs gr acts y l Y (or_msgs _ _ _ _ _ O)).
Qed.

(** *** What was seen at any time *)
Section Any.
Context (acts : list yact) (y : sys) (l : list ylog).
Hypothesis Y : yran K relaxed gc gs o gr acts y l.
Hypothesis O : orderly K relaxed o gr l.
Hypothesis E1 : clogs (app_log L) = clogs (fy l).
Hypothesis E2 : slogs (app_log L) = slogs (fy l).

Lemma seen_requests : requests (clogs (app_log L)) = requests (clogs l).
Proof. rewrite E1, shown_clogs. apply shown_requests. Qed.
Lemma seen_reports : sreports (slogs (app_log L)) = sreports (slogs l).
Proof. rewrite E2, shown_slogs. apply shown_sreports. Qed.
Lemma seen_enqueued : enqueued (clogs (app_log L)) = enqueued (clogs l).
Proof. rewrite E1, shown_clogs. apply shown_enqueued. Qed.
Lemma seen_events : events (clogs (app_log L)) = events (clogs l).
Proof. rewrite E1, shown_clogs. apply shown_events. Qed.
Lemma seen_oldest : oldest (clogs (app_log L)) = oldest (clogs l).
Proof. rewrite E1, shown_clogs. apply shown_oldest. Qed.
Lemma seen_told : told_sent (slogs (app_log L)) = told_sent (slogs l).
Proof. unfold told_sent. now rewrite E2, shown_slogs, shown_sevents. Qed.
Lemma seen_given : flat_map accepted (slogs l) = given (rights L).
Proof.
  rewrite <- given_app_log, <- slogs_app_log, E2, shown_slogs. now rewrite shown_accepted.
Qed.
Lemma seen_reports_taken : sreports (slogs (app_log L)) =
  map (fun p => sresult (fst p) (snd p)) (staken (slogs l)).
Proof. rewrite seen_reports. exact (sreports_taken K relaxed o gc gs gr acts y l Y). Qed.

Lemma sys_parts : forall rd, Forall2 (read_as K o) (staken (slogs l)) rd ->
  interleaved (given (rights L)) (flat_map (rejection K o) rd) (visible (scheduled o gr (slogs l))).
Proof.
  intros rd H. rewrite <- seen_given, <- (app_scheduled o gr), <- (own_scheduled K o gr _ _ H).
  apply parts_visible.
Qed.

Lemma sys_told : waiting K y -> forall rd, Forall2 (read_as K o) (staken (slogs l)) rd ->
  interleaved (told_sent (slogs l)) (flat_map (rejection K o) rd) (visible (sent o gr (slogs l))).
Proof.
  intros W rd H. destruct W as (_ & _ & _ & s' & Ws).
  destruct (sys_run_new K relaxed o gc gs gr _ _ _ Y) as (zz & St & _ & Rs & _).
  pose proof (ServerInv.sinv_steps K o gs gr _ _ (zsteps_xsteps K relaxed o _ _ _ St)) as I1.
  destruct (server_waits K o _ _ _ Rs Ws) as (x1 & _ & _ & _ & _ & _ & _ & _ & Q & _).
  destruct (ServerInv.quiet_inv _ _ Q) as (_ & Eq & c & Ec & Hc & _ & Hn).
  specialize (Hn (ServerInv.si_one _ _ _ _ _ I1)). rewrite Eq in Hn.
  destruct (sent_spec K o gr _ _ I1) as [_ A].
  destruct (ServerInv.si_queue _ _ _ _ _ I1) as (dn & D1 & D2 & D3).
  assert (S1 : sent o gr (slogs l) = dn ++ opt_list (ss_current (x_send (z_x zz)))).
  { apply (app_inv_tail (ss_queue (x_send (z_x zz)))). rewrite <- A, D1.
    unfold ServerInv.pending. now rewrite app_assoc. }
  assert (S2 : told_sent (slogs l) = app_part (sent o gr (slogs l))).
  { unfold told_sent. rewrite told_events, D3, told_parts, S1.
    unfold app_part. rewrite flat_map_app. fold (app_part dn) (app_part (opt_list (ss_current (x_send (z_x zz))))).
    rewrite <- (told_parts (opt_list _)), Ec, Hc. cbn. now rewrite app_nil_r. }
  rewrite S2, <- (own_scheduled K o gr _ _ H).
  replace (own_part (scheduled o gr (slogs l))) with (own_part (sent o gr (slogs l))).
  - apply parts_visible.
  - rewrite A. unfold own_part at 2. rewrite flat_map_app. fold (own_part (ss_queue (x_send (z_x zz)))).
    rewrite (own_none _ Hn), app_nil_r. reflexivity.
Qed.

Lemma visible_sent : exists rest,
  visible (scheduled o gr (slogs l)) = visible (sent o gr (slogs l)) ++ rest.
Proof.
  eexists. unfold sent, visible.
  rewrite <- (firstn_skipn (length (souts (slogs l))) (scheduled o gr (slogs l))) at 1.
  apply flat_map_app.
Qed.
End Any.

Lemma net_exchange : exists took rd rest,
  requests (clogs (app_log L)) = rd ++ rest /\ Forall2 (read_as K o) took rd /\
  sreports (slogs (app_log L)) = map (fun p => sresult (fst p) (snd p)) took /\
  exists ys more, interleaved (given (rights L)) (flat_map (rejection K o) rd) ys /\
    ys = reported_all (events (clogs (app_log L))) ++ more.
Proof.
  destruct net_lift as (acts & y & l & Y & O & E1 & E2).
  destruct (read_prefix K relaxed o gc gs gr acts y l Y O) as (rd & rest & H1 & H2).
  exists (staken (slogs l)), rd, rest. rewrite (seen_requests l E1).
  split; [exact H1|]. split; [exact H2|].
  split; [exact (seen_reports_taken acts y l Y E2)|].
  destruct (reported_prefix K relaxed o gc gs gr acts y l Y O) as (m1 & H3).
  destruct (visible_sent l) as (m2 & H4).
  exists (visible (scheduled o gr (slogs l))), (m1 ++ m2). split; [now apply sys_parts|].
  now rewrite (seen_events l E1), H4, H3, app_assoc.
Qed.

Lemma net_cmds : exists rest,
  map snd (enqueued (clogs (app_log L))) = cmds (requests (clogs (app_log L))) ++ rest.
Proof.
  destruct net_lift as (acts & y & l & Y & O & E1 & E2).
  rewrite (seen_requests l E1), (seen_enqueued l E1).
  exact (requests_cmds K relaxed o gc gs gr acts y l Y O).
Qed.

Lemma net_smuggling : forall c, In (IEvent (command_event c)) (sreports (slogs (app_log L))) ->
  exists h, In (h, c) (enqueued (clogs (app_log L))).
Proof.
  destruct net_lift as (acts & y & l & Y & O & E1 & E2).
  rewrite (seen_reports l E2), (seen_enqueued l E1).
  exact (reported_enqueued K relaxed o gc gs gr acts y l Y O).
Qed.

Lemma net_delivered :
  (forall h c, In (h, c) (enqueued (clogs (app_log L))) -> lits_fit o (enc_command K c)) ->
  exists rd rest, requests (clogs (app_log L)) = rd ++ rest /\
    sreports (slogs (app_log L)) = map (fun q => IEvent (request_event q)) rd.
Proof.
  destruct net_lift as (acts & y & l & Y & O & E1 & E2).
  rewrite (seen_requests l E1), (seen_reports l E2), (seen_enqueued l E1).
  exact (delivered_prefix K relaxed o gc gs gr acts y l Y O).
Qed.

(** *** At rest *)
Hypothesis Rest : at_rest z.

Lemma rest_exchange : exists took,
  Forall2 (read_as K o) took (requests (clogs (app_log L))) /\
  sreports (slogs (app_log L)) = map (fun p => sresult (fst p) (snd p)) took /\
  interleaved (told_sent (slogs (app_log L))) (flat_map (rejection K o) (requests (clogs (app_log L))))
    (reported_all (events (clogs (app_log L)))).
Proof.
  destruct (talk_rest _ _ _ _ _ _ _ _ _ _ Talk Rest Ord Own) as (acts & y & l & Y & W & O & E1 & E2).
  exists (staken (slogs l)). rewrite (seen_requests l E1).
  pose proof (read_all K relaxed o gc gs gr acts y l Y O W) as H.
  split; [exact H|]. split; [exact (seen_reports_taken acts y l Y E2)|].
  rewrite (seen_events l E1), (reported_waiting K relaxed o gc gs gr acts y l Y O W), (seen_told l E2).
  exact (sys_told acts y l Y W _ H).
Qed.

Lemma rest_delivered :
  (forall h c, In (h, c) (enqueued (clogs (app_log L))) -> lits_fit o (enc_command K c)) ->
  sreports (slogs (app_log L)) =
    map (fun q => IEvent (request_event q)) (requests (clogs (app_log L))).
Proof.
  destruct (talk_rest _ _ _ _ _ _ _ _ _ _ Talk Rest Ord Own) as (acts & y & l & Y & W & O & E1 & E2).
  rewrite (seen_requests l E1), (seen_reports l E2), (seen_enqueued l E1).
  intro Fit. exact (delivered_all K relaxed o gc gs gr acts y l Y O Fit W).
Qed.

Lemma rest_greeted : greetings (events (clogs (app_log L))) = [gr].
Proof.
  destruct (talk_rest _ _ _ _ _ _ _ _ _ _ Talk Rest Ord Own) as (acts & y & l & Y & W & O & E1 & E2).
  rewrite (seen_events l E1). exact (greeted_waiting K relaxed o gc gs gr acts y l Y (or_msgs _ _ _ _ _ O) W).
Qed.

Lemma rest_oldest : forall h c, oldest (clogs (app_log L)) = Some (h, c) -> ~ regular c.
Proof.
  destruct (talk_rest _ _ _ _ _ _ _ _ _ _ Talk Rest Ord Own) as (acts & y & l & Y & W & O & E1 & E2).
  rewrite (seen_oldest l E1). exact (oldest_not_regular K relaxed o gc gs gr acts y l Y O W).
Qed.
End Thms.
