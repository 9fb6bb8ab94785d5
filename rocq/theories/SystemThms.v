(** What follows from the joint invariant: the client and the server understand each other. *)
From Coq Require Import List NArith Bool PeanoNat Lia ZifyBool ZifyNat ZifyN.
From Verif Require Import Base Types Codec Handle Receive ServerSend ClientSend Client Server
  SpecFraming SpecClient SpecServer ReceiveProofs ClientRecv ServerRecv ClientAbs ServerAbs
  System SystemAbs SpecSystem SystemLog SystemPos SystemResp SystemStage SystemServer SystemClient.
From Verif Require ClientInv ServerInv.
Import ListNotations.

Section Thms.
  Variable K : Codecs.
  Variable relaxed : bool.
  Variable o : soptions.
  Variable gc gs : hgen.
  Variable gr : greeting.

  Notation zsteps := (zsteps K relaxed o).
  Notation sched := (scheduled o gr).
  Notation cur_of a := (cs_current (a_send a)).
  Notation jinv := (jinv K o gr).
  Notation orderly := (orderly K relaxed o gr).

  Lemma jinv_new : jinv [] (astate_new gc) (xnew gs gr) [] [] [] [] [] [] [].
  Proof.
    constructor; cbn; try discriminate; try contradiction.
    - constructor.
    - reflexivity.
    - constructor; cbn; auto. now left.
    - constructor. left. split; [reflexivity|constructor].
    - constructor; [exact I|constructor].
    - reflexivity.
  Qed.

  Lemma jinv_steps : forall l z, zsteps (znew gc gs gr) l z -> orderly l ->
    exists rd items pre1 G R cs, jinv l (z_a z) (z_x z) (z_toS z) rd items pre1 G R cs.
  Proof.
    intros l z H. remember (znew gc gs gr) as z0 eqn:E0.
    induction H as [z|z l z1 l1 z2 H IH H1]; intro Ho; subst z.
    { exists [], [], [], [], [], []. exact jinv_new. }
    pose proof (orderly_app _ _ _ _ _ _ Ho) as Ho0.
    destruct (IH eq_refl Ho0) as (rd & items & pre1 & G & R & cs & J).
    pose proof (side_steps K relaxed o gc gs gr _ _ H (or_msgs _ _ _ _ _ Ho0)) as Sd.
    pose proof (ServerInv.sinv_steps K o gs gr _ _ (zsteps_xsteps K relaxed o _ _ _ H)) as I1.
    assert (H2 : zsteps (znew gc gs gr) (l ++ l1) z2) by (econstructor; eauto).
    pose proof (respinv_steps K relaxed o gc gs gr _ _ H2 (or_msgs _ _ _ _ _ Ho)) as Rp.
    destruct H1 as [a a' x ts tc lc Ha Hi|a x x' ts tc ls Hx Hi|a x ts tc d|a x ts tc d];
      cbn [z_a z_x z_toC z_toS] in *.
    - destruct (jinv_astep K relaxed o gr _ _ _ _ _ _ _ _ _ _ _ _ _ J Sd Ho I1 Rp Ha Hi)
        as (items' & G' & R' & cs' & J'). eauto 10.
    - destruct (jinv_xstep K relaxed o gr _ _ _ _ _ _ _ _ _ _ _ _ J Sd Ho Hx Hi)
        as (rd' & items' & pre1' & G' & R' & cs' & J'). eauto 10.
    - exists rd, items, pre1, G, R, cs.
      destruct J as [J1 J2 J3 J4 J5 J6 J7 J8 J9].
      change [YS (SlInput d)] with (map YS [SlInput d]).
      constructor; rewrite ?clogs_server, ?slogs_server; auto.
      + rewrite ServerInv.staken_app. cbn. now rewrite app_nil_r.
      + destruct J3 as [P1 P2 P3 P4 P5]. constructor; auto; cbn.
        now rewrite <- app_assoc.
      + now rewrite asked_app, open_tag_app.
      + rewrite completed_app, inflight_server, !app_nil_r; [exact J5|apply (sd_taken _ _ _ _ _ _ Sd)].
      + intros m Hm Hu. rewrite completed_app, app_nil_r. auto.
      + intros t. rewrite completed_app, app_nil_r. auto.
      + intros t. rewrite open_tag_app. apply J8.
      + rewrite ServerInv.scheduled_app, app_nil_r. exact J9.
    - exists rd, items, pre1, G, R, cs.
      change [YC (ClInput d)] with (map YC [ClInput d]).
      eapply jinv_keep; eauto; try reflexivity.
      + repeat constructor.
  Qed.

  (** *** Runs *)

  Variable acts : list yact.
  Variable y : sys.
  Variable l : list ylog.
  Hypothesis Run : yran K relaxed gc gs o gr acts y l.
  Hypothesis Ord : orderly l.

  Lemma orderly_next : orderly (l ++ map YC [ClNext INeedMore]).
  Proof.
    destruct Ord as [H1 H2 H3 H4 H5 H6 H7]. constructor; auto;
      rewrite ?clogs_client, ?slogs_client; auto.
    - intros h c. rewrite ClientInv.enqueued_app, app_nil_r. apply H2.
    - intros d h Hin. apply in_app_or in Hin as [Hin|[Hin|[]]]; [eauto|discriminate].
    - intros h Hin. apply in_app_or in Hin as [Hin|[Hin|[]]]; [eauto|discriminate].
    - now rewrite ClientInv.enqueued_app, app_nil_r.
  Qed.

  Lemma read_prefix : exists rd rest,
    requests (clogs l) = rd ++ rest /\ Forall2 (read_as K o) (staken (slogs l)) rd.
  Proof.
    destruct (sys_run_new K relaxed o gc gs gr _ _ _ Run) as (z & St & _).
    destruct (jinv_steps _ _ St Ord) as (rd & items & pre1 & G & R & cs & J).
    destruct (started_prefix (clogs l) (cur_of (z_a z))) as (rest & E).
    exists rd, (items ++ rest). split; [|apply (j_read _ _ _ _ _ _ _ _ _ _ _ _ _ J)].
    now rewrite E, <- (j_started _ _ _ _ _ _ _ _ _ _ _ _ _ J), <- app_assoc.
  Qed.

  Lemma reported_prefix : exists rest,
    visible (sent o gr (slogs l)) = reported_all (events (clogs l)) ++ rest.
  Proof.
    destruct (sys_run_new K relaxed o gc gs gr _ _ _ Run) as (z & St & _).
    destruct (jinv_steps _ _ St Ord) as (rd & items & pre1 & G & R & cs & J).
    destruct (respinv_steps K relaxed o gc gs gr _ _ St (or_msgs _ _ _ _ _ Ord)) as (F0 & F1 & E1 & E2 & _).
    pose proof (ServerInv.sinv_steps K o gs gr _ _ (zsteps_xsteps K relaxed o _ _ _ St)) as I1.
    destruct (sent_spec K o gr _ _ I1) as [_ A].
    rewrite (j_vis _ _ _ _ _ _ _ _ _ _ _ _ _ J).
    assert (E : length (taken (clogs l)) = length F0).
    { rewrite <- (map_length crx_verdict). fold (received (clogs l)). now rewrite E2, map_length. }
    rewrite E, A, <- E1, <- app_assoc, firstn_app, Nat.sub_diag, firstn_all. cbn [firstn].
    rewrite app_nil_r. exists (visible F1). unfold visible. apply flat_map_app.
  Qed.

  (** Both sides ask for more input. *)
  Record rest_state (c : client) (a : astate) (x : xstate) (rd items : list request)
      (pre1 G R : list fragment) (cs : list smsg) : Prop := RestState {
    re_jinv : jinv (l ++ map YC [ClNext INeedMore]) a x [] rd items pre1 G R cs;
    re_conv : ClientInv.conv_inv K a (clogs (l ++ map YC [ClNext INeedMore]));
    re_client : crel K relaxed c a;
    re_server : srel K o (y_server y) x;
    re_greeted : a_greeted a = true;
    re_settled : asettled K a;
    re_flight : inflight o gr (l ++ map YC [ClNext INeedMore]) = ss_queue (x_send x);
    re_quiet : quiet (x_send x) <> None;
    re_queue : forall m, In m (ss_queue (x_send x)) -> ServerInv.internal m = false;
    re_line : x_mode x = ExIdleAccept \/ no_line (NfLiteral (x_need x)) (x_rest x);
    re_steps : zsteps (znew gc gs gr) (l ++ map YC [ClNext INeedMore]) (ZState a x [] [])
  }.

  Lemma waiting_rest : forall c, waiting K y -> client_next K (y_client y) = (c, [], INeedMore) ->
    exists a x rd items pre1 G R cs, rest_state c a x rd items pre1 G R cs.
  Proof.
    intros c W Wc.
    pose proof (resp_waiting K relaxed o gc gs gr _ _ _ Run (or_msgs _ _ _ _ _ Ord) W) as Hrec.
    destruct W as (W1 & W2 & _ & (s' & Ws)).
    destruct (sys_run_new K relaxed o gc gs gr _ _ _ Run) as (z & St & Rc & Rs & R1 & R2).
    destruct z as [a x ts tc]. cbn in *. subst ts tc. rewrite W1, W2 in St.
    destruct (client_waits K relaxed _ _ _ Rc Wc) as (a' & Sa & Hset & Hno & Rc').
    destruct (server_waits K o _ _ _ Rs Ws) as (x' & _ & _ & _ & _ & _ & _ & _ & Q & _ & Hl).
    pose proof (zsteps_trans _ _ _ _ _ _ _ _ St
      (zsteps_client K relaxed o _ _ _ x [] [] Sa eq_refl)) as St'.
    cbn [outputs app] in St'.
    pose proof orderly_next as Ord'.
    destruct (jinv_steps _ _ St' Ord') as (rd & items & pre1 & G & R & cs & J).
    cbn [z_a z_x z_toS z_toC] in J.
    pose proof (ServerInv.sinv_steps K o gs gr _ _ (zsteps_xsteps K relaxed o _ _ _ St')) as I1.
    pose proof (side_steps K relaxed o gc gs gr _ _ St' (or_msgs _ _ _ _ _ Ord')) as Sd.
    pose proof (respinv_steps K relaxed o gc gs gr _ _ St' (or_msgs _ _ _ _ _ Ord')) as Rp.
    cbn [z_a z_x] in *.
    assert (Lc : taken (clogs (l ++ map YC [ClNext INeedMore])) = taken (clogs l)).
    { rewrite clogs_client, ClientInv.taken_app. apply app_nil_r. }
    assert (Lr : received (clogs (l ++ map YC [ClNext INeedMore])) = received (clogs l)).
    { unfold received. now rewrite Lc. }
    assert (Ls : slogs (l ++ map YC [ClNext INeedMore]) = slogs l).
    { apply slogs_client. }
    rewrite Ls in I1.
    destruct (sent_spec K o gr _ _ I1) as [_ A].
    assert (Hlen : length (taken (clogs l)) = length (sent o gr (slogs l))).
    { rewrite <- (map_length crx_verdict). fold (received (clogs l)). now rewrite Hrec, map_length. }
    (* something was output *)
    assert (Hsent : sent o gr (slogs l) <> []).
    { intro E0. rewrite E0 in A. cbn [app] in A.
      destruct (ServerInv.si_queue _ _ _ _ _ I1) as (dn & D1 & D2 & _).
      unfold quiet in Q. destruct (ss_current (x_send x)) as [m|] eqn:Ec.
      - unfold sent in E0. rewrite D2 in E0. rewrite map_length, app_length in E0. cbn in E0.
        unfold scheduled in E0. rewrite Nat.add_1_r in E0. discriminate.
      - rewrite A in *. unfold scheduled in A. destruct (ss_queue (x_send x)); [|discriminate].
        discriminate A. }
    destruct Rp as (F0 & F1 & E1 & E2 & E3 & E4).
    exists a', x, rd, items, pre1, G, R, cs. constructor; auto.
    - apply (sd_conv _ _ _ _ _ _ Sd).
    - apply E4. intros ->. rewrite Lr, Hrec in E2. apply map_eq_nil in E2. contradiction.
    - unfold inflight. rewrite Lc, Ls, Hlen, A, skipn_app, Nat.sub_diag, skipn_all. reflexivity.
    - congruence.
    - intros m Hm. unfold quiet in Q.
      pose proof (ServerInv.si_one _ _ _ _ _ I1) as One.
      destruct (ss_current (x_send x)) as [[g|[h|] r]|] eqn:Ec; try discriminate.
      + unfold ServerInv.pending, ServerInv.count_internal in One. rewrite Ec in One. cbn in One.
        destruct (ServerInv.internal m) eqn:Em; [|reflexivity]. exfalso.
        assert (Hf : In m (filter ServerInv.internal (ss_queue (x_send x)))) by now apply filter_In.
        destruct (filter ServerInv.internal (ss_queue (x_send x))); [contradiction|cbn in One; lia].
      + destruct (ss_queue (x_send x)); [contradiction|discriminate].
    - destruct Hl as [Hl|[Hl _]]; auto.
  Qed.

  Lemma controls_in : forall done F cs m, controls done F cs -> In m cs -> In m F.
  Proof.
    intros done F cs m H. induction H as [|m' F cs _ H IH|m' F cs H IH]; intro Hin; [contradiction|..].
    - right. auto.
    - destruct Hin as [->|Hin]; [now left|right; auto].
  Qed.

  (** Requests are not left unread, and the client has nothing more to send. *)
  Lemma rest_read : forall c a x rd items pre1 G R cs,
    rest_state c a x rd items pre1 G R cs -> items = [] /\ R = [].
  Proof.
    intros c a x rd items pre1 G R cs [J Hc _ _ Hg Hset Hfl Hq Hin Hl _].
    pose proof (ClientInv.settled_waiting K _ (Hset Hg)) as Wt.
    assert (Hcs : forall m, In m cs -> ServerInv.internal m = false).
    { intros m Hm. apply Hin. rewrite <- Hfl.
      eapply controls_in; [apply (j_ctl _ _ _ _ _ _ _ _ _ _ _ _ _ J)|exact Hm]. }
    (* what the client still has to output *)
    assert (HR : R = [] \/ exists lit fs, R = FLiteral lit LSync :: fs /\ G <> [] /\ items <> []).
    { pose proof (j_stage _ _ _ _ _ _ _ _ _ _ _ _ _ J) as Sg.
      unfold ClientInv.waiting in Wt.
      remember (cur_of a) as cur eqn:Ecur.
      destruct Sg as [| |h co fs act lit mode items G cpre S1 S2 S3 S4 S5|h co fs act lit q S1 S2| | |
        |h ca act S1 S2|h ca act hh q S1 S2| |h ca d line S1 S2 S3|h ca act d G S1 S2 S3| |
        | | | |h t line S1 S2| |];
        auto; try contradiction.
      - right. exists lit, fs. split; [reflexivity|]. split; [exact S4|].
        destruct S3 as (its & -> & _). now destruct its.
      - exfalso. specialize (Hcs _ (or_introl eq_refl)). discriminate. }
    assert (Hi : items = []); [|split; [exact Hi|]].
    2:{ destruct HR as [HR|(lit & fs & _ & _ & Hn)]; [exact HR|contradiction]. }
    destruct items as [|q its]; [reflexivity|]. exfalso.
    pose proof (stage_kind K _ _ _ _ _ _ _ _ _ (j_stage _ _ _ _ _ _ _ _ _ _ _ _ _ J)) as Hk.
    destruct Hl as [Hl|Hl]; [rewrite Hl in Hk; contradiction|].
    pose proof (items_ok K relaxed o gr _ _ _ _ _ _ _ _ _ _ J orderly_next) as Hok.
    pose proof (j_pos _ _ _ _ _ _ _ _ _ _ _ _ _ J) as P.
    destruct (next_line_exists K o _ _ _ _ _ _ _ (Forall_inv Hok) P) as (dl & ln & post & N).
    destruct N as [N1 N2 N3 N4 N5 N6 N7 N8].
    destruct P as [P1 P2 P3 P4 P5].
    assert (EG : G ++ R = dl ++ FLine ln :: (post ++ item_frags K its)).
    { apply (app_inv_head pre1). rewrite <- P1. unfold item_frags. cbn [map concat].
      rewrite N1, <- !app_assoc. reflexivity. }
    assert (HG : exists G', G = dl ++ FLine ln :: G').
    { destruct HR as [->|(lit & fs & -> & Hn & _)].
      - rewrite app_nil_r in EG. eauto.
      - destruct G as [|f G]; [contradiction|]. destruct N7 as [[_ ->]|(d & m & -> & _)].
        + injection EG as -> EG. cbn. eauto.
        + injection EG as -> EG. destruct G as [|f G]; [discriminate|].
          injection EG as -> EG. cbn. eauto. }
    destruct HG as (G' & ->). rewrite app_nil_r in P3.
    apply (Hl (frags_bytes dl ++ ln) ln (frags_bytes G')).
    - rewrite N2. now constructor.
    - rewrite P3, ClientInv.frags_bytes_app. unfold frags_bytes at 2. cbn.
      now rewrite <- app_assoc.
  Qed.

  Lemma requests_next : requests (clogs (l ++ map YC [ClNext INeedMore])) = requests (clogs l).
  Proof.
    rewrite clogs_client. unfold requests, segment_requests.
    rewrite ClientInv.terminals_app, ClientInv.enqueued_app, !app_nil_r.
    apply flat_map_ext_in. intros k Hk. apply in_seq in Hk.
    destruct (Nat.lt_ge_cases k (length (terminals (clogs l)))) as [Hlt|Hge].
    - now rewrite ClientInv.segment_old by assumption.
    - assert (k = length (terminals (clogs l))) by lia. subst k.
      pose proof (ClientInv.cur_seg_app (clogs l) [ClNext INeedMore] ltac:(repeat constructor)) as E.
      unfold cur_seg in E. rewrite ClientInv.terminals_app, app_nil_r in E. rewrite E.
      now rewrite ClientInv.exchange_app, app_nil_r.
  Qed.

  Lemma read_all : waiting K y ->
    Forall2 (read_as K o) (staken (slogs l)) (requests (clogs l)).
  Proof.
    intro W. destruct (proj1 (proj2 (proj2 W))) as [c Wc].
    destruct (waiting_rest c W Wc) as (a & x & rd & items & pre1 & G & R & cs & St).
    destruct (rest_read _ _ _ _ _ _ _ _ _ St) as [-> ->].
    destruct St as [J (dn & Ec & [Hr _] & _) _ _ Hg Hset _ _ _ _ _].
    pose proof (ClientInv.settled_waiting K _ (Hset Hg)) as Wt.
    pose proof (j_read _ _ _ _ _ _ _ _ _ _ _ _ _ J) as Hrd. rewrite slogs_client in Hrd.
    rewrite <- requests_next. rewrite (started_all _ (cur_of a)).
    - rewrite <- (j_started _ _ _ _ _ _ _ _ _ _ _ _ _ J), app_nil_r. exact Hrd.
    - intro E. unfold ClientInv.waiting in Wt. rewrite E in Wt.
      rewrite Ec, E, Wt. rewrite clogs_client, ClientInv.terminals_app, ?app_nil_r in Hr |- *. cbn in *. rewrite ?app_nil_r in *. lia.
  Qed.

  Lemma reported_waiting : waiting K y ->
    reported_all (events (clogs l)) = visible (sent o gr (slogs l)).
  Proof.
    intro W.
    destruct (sys_run_new K relaxed o gc gs gr _ _ _ Run) as (z & St & _).
    destruct (jinv_steps _ _ St Ord) as (rd & items & pre1 & G & R & cs & J).
    pose proof (resp_waiting K relaxed o gc gs gr _ _ _ Run (or_msgs _ _ _ _ _ Ord) W) as Hrec.
    pose proof (ServerInv.sinv_steps K o gs gr _ _ (zsteps_xsteps K relaxed o _ _ _ St)) as I1.
    destruct (sent_spec K o gr _ _ I1) as [_ A].
    rewrite (j_vis _ _ _ _ _ _ _ _ _ _ _ _ _ J).
    assert (E : length (taken (clogs l)) = length (sent o gr (slogs l))).
    { rewrite <- (map_length crx_verdict). fold (received (clogs l)). now rewrite Hrec, map_length. }
    now rewrite E, A, firstn_app, Nat.sub_diag, firstn_all, app_nil_r.
  Qed.

  Lemma reported_waiting_twice : waiting_twice K y ->
    reported_all (events (clogs l)) = visible (sched (slogs l)).
  Proof.
    intro W.
    pose proof (resp_waiting_twice K relaxed o gc gs gr _ _ _ Run (or_msgs _ _ _ _ _ Ord) W) as H1.
    pose proof (resp_waiting K relaxed o gc gs gr _ _ _ Run (or_msgs _ _ _ _ _ Ord) (proj1 W)) as H2.
    rewrite (reported_waiting (proj1 W)). f_equal.
    rewrite H1 in H2. unfold sent in *.
    assert (E : length (map msg_verdict (sched (slogs l))) =
      length (map msg_verdict (firstn (length (souts (slogs l))) (sched (slogs l))))) by now rewrite H2.
    rewrite !map_length, firstn_length in E. apply firstn_all2. lia.
  Qed.

  (** The oldest command that is not resolved is AUTHENTICATE or IDLE. *)
  Lemma rest_current : forall c a x rd items pre1 G R cs,
    rest_state c a x rd items pre1 G R cs ->
    (cur_of a = None /\ length (terminals (clogs l)) = length (enqueued (clogs l))) \/
    (exists h ca act, cur_of a = Some (CmAuthenticate h ca act) /\
       nth_error (enqueued (clogs l)) (length (terminals (clogs l))) = Some (h, command_of_authenticate ca)) \/
    (exists h t act, cur_of a = Some (CmIdle h t act) /\
       nth_error (enqueued (clogs l)) (length (terminals (clogs l))) = Some (h, idle_cmd t)).
  Proof.
    intros c a x rd items pre1 G R cs St.
    destruct (rest_read _ _ _ _ _ _ _ _ _ St) as [-> ->].
    destruct St as [J (dn & Ec & [Hr _] & _) _ _ Hg Hset Hfl _ Hin Hl _].
    rewrite clogs_client, ClientInv.enqueued_app, app_nil_r in Ec.
    rewrite clogs_client, ClientInv.terminals_app, app_nil_r in Hr.
    pose proof (ClientInv.settled_waiting K _ (Hset Hg)) as Wt.
    assert (Hcs : forall m, In m cs -> ServerInv.internal m = false).
    { intros m Hm. apply Hin. rewrite <- Hfl.
      eapply controls_in; [apply (j_ctl _ _ _ _ _ _ _ _ _ _ _ _ _ J)|exact Hm]. }
    pose proof (j_stage _ _ _ _ _ _ _ _ _ _ _ _ _ J) as Sg.
    unfold ClientInv.waiting in Wt.
    destruct (cur_of a) as [[h co fs act|h ca act|h t act]|] eqn:Ecur.
    - exfalso. inversion Sg; subst; try contradiction.
      specialize (Hcs _ (or_introl eq_refl)). discriminate.
    - right. left. exists h, ca, act. split; [reflexivity|].
      rewrite Ec, <- Hr, nth_error_app2, Nat.sub_diag by lia. reflexivity.
    - right. right. exists h, t, act. split; [reflexivity|].
      rewrite Ec, <- Hr, nth_error_app2, Nat.sub_diag by lia. reflexivity.
    - left. split; [reflexivity|]. rewrite Ec, Wt, <- Hr. cbn. now rewrite app_nil_r.
  Qed.

  Lemma oldest_not_regular : waiting K y -> forall h c, oldest (clogs l) = Some (h, c) -> ~ regular c.
  Proof.
    intros W h c Ho (p & Hp). destruct (proj1 (proj2 (proj2 W))) as [c0 Wc].
    destruct (waiting_rest c0 W Wc) as (a & x & rd & items & pre1 & G & R & cs & St).
    unfold oldest in Ho.
    destruct (rest_current _ _ _ _ _ _ _ _ _ St) as [[_ E]|[(h' & ca & act & _ & E)|(h' & t & act & _ & E)]].
    - rewrite (proj2 (nth_error_None _ _)) in Ho by lia. discriminate.
    - rewrite E in Ho. injection Ho as _ <-. discriminate.
    - rewrite E in Ho. injection Ho as _ <-. discriminate.
  Qed.

  Lemma no_literal_wait : waiting K y -> forall c, client_next K (y_client y) = (c, [], INeedMore) ->
    forall h cmd fs act, cs_current (c_send c) <> Some (CmCommand h cmd fs act).
  Proof.
    intros W c Wc h cmd fs act E.
    destruct (waiting_rest c W Wc) as (a & x & rd & items & pre1 & G & R & cs & St).
    destruct (re_client _ _ _ _ _ _ _ _ _ St) as (_ & Es & _). rewrite Es in E.
    destruct (rest_current _ _ _ _ _ _ _ _ _ St) as [[E' _]|[(h' & ca & act' & E' & _)|(h' & t & act' & E' & _)]];
      congruence.
  Qed.

  Lemma whose_turn : waiting_twice K y -> forall c, client_next K (y_client y) = (c, [], INeedMore) ->
    forall h cmd, oldest (clogs l) = Some (h, cmd) -> turn K (slogs l) c (y_server y) cmd.
  Proof.
    intros W c Wc h cmd Ho.
    pose proof (resp_waiting_twice K relaxed o gc gs gr _ _ _ Run (or_msgs _ _ _ _ _ Ord) W) as Hrec.
    destruct (waiting_rest c (proj1 W) Wc) as (a & x & rd & items & pre1 & G & R & cs & St).
    pose proof (rest_current _ _ _ _ _ _ _ _ _ St) as Cur.
    destruct (rest_read _ _ _ _ _ _ _ _ _ St) as [-> ->].
    destruct St as [J _ Rc Rs Hg Hset Hfl _ _ _ _].
    assert (Hcs : cs = []).
    { assert (Hf : inflight o gr (l ++ map YC [ClNext INeedMore]) = []).
      { unfold inflight. rewrite clogs_client, slogs_client, ClientInv.taken_app, app_nil_r.
        apply skipn_all2. rewrite <- (map_length crx_verdict). fold (received (clogs l)).
        now rewrite Hrec, map_length. }
      pose proof (j_ctl _ _ _ _ _ _ _ _ _ _ _ _ _ J) as Ct. rewrite Hf in Ct. now inversion Ct. }
    subst cs.
    pose proof (ClientInv.settled_waiting K _ (Hset Hg)) as Wt.
    pose proof (j_stage _ _ _ _ _ _ _ _ _ _ _ _ _ J) as Sg.
    rewrite slogs_client in Sg.
    destruct Rc as (_ & Ecs & _). destruct Rs as (_ & _ & _ & _ & Rs).
    unfold oldest in Ho.
    destruct Cur as [[_ E]|[(h' & ca & act & Ec & E)|(h' & t & act & Ec & E)]].
    - rewrite (proj2 (nth_error_None _ _)) in Ho by lia. discriminate.
    - rewrite E in Ho. injection Ho as _ <-. unfold ClientInv.waiting in Wt. rewrite Ec in Wt, Sg.
      inversion Sg as [| | | | | |? ? ? ? ? ? ? Op|? ? ? S1 S2 S3 E1 E2 E3 E4| |? ? S1 S2 E1 E2 E3 E4| | | | | | | | | |]; subst.
      + destruct Op as (its & Op & _). now destruct its.
      + apply tu_auth_server; auto; unfold server_authenticate_continue, server_authenticate_finish;
          destruct (s_recv (y_server y)) eqn:Er; destruct (x_mode x); try contradiction; try discriminate;
          intro q; unfold server_enqueue_continuation_request, server_enqueue_and_change.
        * destruct (server_enqueue_response _ _) as [s1 h1]. eauto.
        * unfold server_enqueue_response. cbn. rewrite Er. cbn. eauto.
      + apply tu_auth_client. intros d ln Hd. unfold client_set_authenticate_data, cs_set_authenticate_data.
        rewrite Ecs, Ec, Hd. cbn. eauto.
    - rewrite E in Ho. injection Ho as _ <-. unfold ClientInv.waiting in Wt. rewrite Ec in Wt, Sg.
      inversion Sg as [| | | | | | | | | | | | |? ? ? ? ? ? ? Op|? ? ? S1 S2 E1 E2 E3| | | | |]; subst;
        try contradiction.
      + destruct Op as (its & Op & _). now destruct its.
      + apply tu_idle_server; auto; unfold server_idle_accept, server_idle_reject;
          destruct (s_recv (y_server y)) eqn:Er; destruct (x_mode x); try contradiction; try discriminate;
          intro q; unfold server_enqueue_and_change, server_enqueue_response; cbn; rewrite Er; cbn; eauto.
      + apply tu_idle_client. intros ln Hd. unfold client_set_idle_done, cs_set_idle_done.
        rewrite Ecs, Ec, Hd. cbn. eauto.
  Qed.

  (** What is reported is what was taken from the input. *)
  Lemma sreports_app : forall a b, sreports (a ++ b) = sreports a ++ sreports b.
  Proof. intros. unfold sreports. now rewrite ServerInv.sresults_app, filter_app. Qed.

  Lemma sreports_taken : sreports (slogs l) = map (fun p => sresult (fst p) (snd p)) (staken (slogs l)).
  Proof.
    destruct (sys_run_new K relaxed o gc gs gr _ _ _ Run) as (z & St & _).
    apply (zsteps_xsteps K relaxed o) in St. revert St. generalize (slogs l) as ls.
    generalize (z_x z) as x. generalize (z_x (znew gc gs gr)) as x0. clear.
    intros x0 x ls H. induction H as [x|x ls x1 l1 x2 H IH H1]; [reflexivity|].
    rewrite sreports_app, ServerInv.staken_app, map_app, IH. f_equal. clear - H1.
    assert (Hr : forall raw v, is_report (sresult raw v) = true).
    { intros raw v. destruct v as [c| | | | | |]; try reflexivity. cbn. unfold command_event.
      now destruct (cbody c). }
    destruct H1 as [x p x' e Hx|x m q E1 E2|x m e E1 E2|x s1 E1 E2
      |x s1 w ln rest i n E1 E2 E3 E4 E5 E6 E7 E8|x s1 raw rest v E1 E2 E3 E4
      |x s1 raw rest E1 E2 E3 E4 E5]; try reflexivity.
    - destruct p; cbn in Hx;
        repeat match type of Hx with
        | context [x_mode ?a] => destruct (x_mode a)
        | context [xenqueue ?a ?r ?m] => destruct (xenqueue a r m)
        end; try discriminate; injection Hx as _ <-; reflexivity.
    - destruct m as [g|[h|] r]; cbn in E2; try discriminate; injection E2 as <-; reflexivity.
    - unfold sreports. cbn [sresults filter]. now rewrite Hr.
  Qed.

  Lemma requests_cmds : exists rest, map snd (enqueued (clogs l)) = cmds (requests (clogs l)) ++ rest.
  Proof.
    destruct (sys_run_new K relaxed o gc gs gr _ _ _ Run) as (z & St & _).
    pose proof (sd_conv _ _ _ _ _ _
      (side_steps K relaxed o gc gs gr _ _ St (or_msgs _ _ _ _ _ Ord))) as (dn & Ec & [Hr _] & _).
    set (T := length (terminals (clogs l))) in *.
    destruct (Nat.lt_ge_cases T (length (enqueued (clogs l)))) as [Hlt|Hge].
    - assert (E : cmds (requests (clogs l)) = map snd (firstn (T + 1) (enqueued (clogs l)))).
      { pose (m := CmIdle (Handle 0 0) [] IaWaitingForIdleSent).
        rewrite (started_all _ (Some m)) by discriminate.
        rewrite started_cmds; cbn [ClientInv.cur_cmd length]; [reflexivity|]. fold T. cbn. lia. }
      exists (map snd (skipn (T + 1) (enqueued (clogs l)))).
      now rewrite E, <- map_app, firstn_skipn.
    - assert (E : cmds (requests (clogs l)) = map snd (firstn T (enqueued (clogs l)))).
      { rewrite (started_all _ None) by (fold T; lia).
        rewrite started_cmds; cbn [ClientInv.cur_cmd length]; rewrite Nat.add_0_r; [reflexivity|].
        rewrite Ec, !app_length. fold T. lia. }
      exists []. rewrite E, firstn_all2 by lia. now rewrite app_nil_r.
  Qed.

  (** *** All literals fit *)
  Hypothesis Fit : forall h c, In (h, c) (enqueued (clogs l)) -> lits_fit o (enc_command K c).

  Lemma requests_fit : forall c, In (RqCommand c) (requests (clogs l)) -> lits_fit o (enc_command K c).
  Proof.
    intros c Hin. unfold requests in Hin. apply in_flat_map in Hin as (k & _ & Hin).
    unfold segment_requests in Hin. destruct (nth_error _ k) as [[h c']|] eqn:E; [|contradiction].
    destruct Hin as [Hin|Hin].
    - injection Hin as ->. eapply Fit. eapply nth_error_In. exact E.
    - exfalso. apply cmds_in in Hin. now rewrite cmds_answers in Hin.
  Qed.

  Lemma read_events : forall ps qs, Forall2 (read_as K o) ps qs ->
    (forall c, In (RqCommand c) qs -> lits_fit o (enc_command K c)) ->
    map (fun p => sresult (fst p) (snd p)) ps = map (fun q => IEvent (request_event q)) qs /\
    concat (map fst ps) = frags_bytes (item_frags K qs).
  Proof.
    intros ps qs H. induction H as [|p q ps qs H1 H IH]; intro Hf; [auto|].
    destruct (IH ltac:(intros; apply Hf; now right)) as [E1 E2].
    change (item_frags K (q :: qs)) with (rq_frags K q ++ item_frags K qs).
    cbn [map concat]. rewrite E1, E2, ClientInv.frags_bytes_app.
    destruct H1 as [c Hl|c pre d post Ec Hl Hd|d|]; try (split; reflexivity).
    exfalso. specialize (Hf c (or_introl eq_refl)). rewrite Ec in Hf. apply Forall_app in Hf as [_ Hf].
    inversion Hf as [|? ? Hx _]; subst. cbn in Hx. lia.
  Qed.

  Lemma delivered_prefix : exists rd rest, requests (clogs l) = rd ++ rest /\
    sreports (slogs l) = map (fun q => IEvent (request_event q)) rd.
  Proof.
    destruct read_prefix as (rd & rest & E & H). exists rd, rest. split; [exact E|].
    rewrite sreports_taken. apply (read_events _ _ H).
    intros c Hc. apply requests_fit. rewrite E. apply in_or_app. now left.
  Qed.

  Lemma delivered_all : waiting K y ->
    sreports (slogs l) = map (fun q => IEvent (request_event q)) (requests (clogs l)).
  Proof.
    intro W. rewrite sreports_taken. apply (read_events _ _ (read_all W)). exact requests_fit.
  Qed.
End Thms.

(** *** Commands that are reported were enqueued *)

Lemma command_event_inj : forall c c', command_event c = command_event c' -> c = c'.
Proof.
  intros [t b] [t' b']. unfold command_event. cbn.
  destruct b, b'; intro E; try discriminate; inversion E; subst; reflexivity.
Qed.

Lemma reported_enqueued : forall K relaxed o gc gs gr acts y l,
  yran K relaxed gc gs o gr acts y l -> orderly K relaxed o gr l ->
  forall c, In (IEvent (command_event c)) (sreports (slogs l)) -> exists h, In (h, c) (enqueued (clogs l)).
Proof.
  intros K relaxed o gc gs gr acts y l Run Ord c Hin.
  rewrite (sreports_taken K relaxed o gc gs gr _ _ _ Run) in Hin.
  destruct (read_prefix K relaxed o gc gs gr _ _ _ Run Ord) as (rd & rest & E & H).
  destruct (requests_cmds K relaxed o gc gs gr _ _ _ Run Ord) as (rest' & Ec).
  assert (Hc : In (RqCommand c) rd).
  { clear - H Hin. induction H as [|p q ps qs H1 H IH]; [contradiction|].
    destruct Hin as [Hin|Hin]; [|right; auto]. left.
    destruct H1 as [c' Hl|c' pre d post Ee Hl Hd|d|]; cbn in Hin; try discriminate;
      injection Hin as Hin.
    - now rewrite (command_event_inj _ _ Hin).
    - unfold command_event in Hin. destruct (cbody c); discriminate.
    - unfold command_event in Hin. destruct (cbody c); discriminate. }
  assert (Hm : In c (map snd (enqueued (clogs l)))).
  { rewrite Ec, E, cmds_app. apply in_or_app. left. apply in_or_app. left. now apply cmds_in. }
  apply in_map_iff in Hm as ((h & c') & <- & Hm). eauto.
Qed.
