(** The joint invariant of client and server, and the steps of the server. *)
From Coq Require Import List NArith Bool PeanoNat Lia ZifyBool ZifyNat ZifyN.
From Verif Require Import Base Types Codec Handle Receive ServerSend ClientSend Client Server
  SpecFraming SpecClient SpecServer ReceiveProofs ClientRecv ServerRecv ClientAbs ServerAbs
  System SystemAbs SpecSystem SystemLog SystemPos SystemResp SystemStage.
From Verif Require ClientInv ServerInv.
Import ListNotations.

Lemma verdict_ok : forall {M L} (dec : bytes -> dec_result M L) relaxed acc w l q m,
  verdict dec relaxed acc w l q -> ends_crlf l -> dec w = DecOk [] m -> q = OMsg m.
Proof.
  intros M L dec relaxed acc w l q m H Hl Hd. destruct H; congruence.
Qed.

Lemma verdict_lit : forall {M L} (dec : bytes -> dec_result M L) relaxed acc w l q i,
  verdict dec relaxed acc w l q -> ends_crlf l -> dec w = DecLit i ->
  q = ORejected i /\ acc i = None.
Proof.
  intros M L dec relaxed acc w l q i H Hl Hd.
  destruct H as [Hr Hn|m Hk Hd'|Hk Hd'|Hk Hd'|i' Hk Hd' Ha|b r m Hk Hd']; try congruence.
  rewrite Hd in Hd'. injection Hd' as <-. auto.
Qed.

Lemma NoDup_app_l : forall {A} (a b : list A), NoDup (a ++ b) -> NoDup a.
Proof.
  intros A a b H. induction a as [|y a IH]; [constructor|].
  cbn in H. inversion H as [|? ? Hn Hd]; subst. constructor; auto.
  intro Hin. apply Hn. apply in_or_app. now left.
Qed.

Section Server.
  Variable K : Codecs.
  Variable relaxed : bool.
  Variable o : soptions.
  Variable gc gs : hgen.
  Variable gr : greeting.

  Notation zsteps := (zsteps K relaxed o).
  Notation sched := (scheduled o gr).
  Notation cur_of a := (cs_current (a_send a)).

  (** Messages that the client has not taken from its input. *)
  Definition inflight (l : list ylog) : list smsg :=
    skipn (length (taken (clogs l))) (sched (slogs l)).

  Record jinv (l : list ylog) (a : astate) (x : xstate) (toS : bytes)
      (rd items : list request) (pre1 G R : list fragment) (cs : list smsg) : Prop := Jinv {
    j_read : Forall2 (read_as K o) (staken (slogs l)) rd;
    j_started : rd ++ items = started (cur_of a) (clogs l);
    j_pos : pos K o x toS items pre1 G R;
    j_stage : stage K (asked (slogs l)) (open_tag (slogs l)) (cur_of a) R (x_mode x) items G cs;
    j_ctl : controls (completed (slogs l)) (inflight l) cs;
    j_tag : forall m, cur_of a = Some m -> unfinished m -> ~ In (cm_tag m) (completed (slogs l));
    j_done : forall t, In t (completed (slogs l)) -> In t (map ctag (cmds rd));
    j_open : forall t, open_tag (slogs l) = Some t -> In t (map ctag (cmds rd));
    j_vis : reported_all (events (clogs l)) =
            visible (firstn (length (taken (clogs l))) (sched (slogs l)))
  }.

  (** What is known otherwise. *)
  Record side (l : list ylog) (a : astate) (x : xstate) : Prop := Side {
    sd_taken : length (taken (clogs l)) <= length (sched (slogs l));
    sd_wf : xwf K o x;
    sd_conv : ClientInv.conv_inv K a (clogs l)
  }.

  Lemma side_steps : forall l z, zsteps (znew gc gs gr) l z ->
    (forall m, In m (sched (slogs l)) -> msg_roundtrips K relaxed m) -> side l (z_a z) (z_x z).
  Proof.
    intros l z H Law.
    pose proof (ServerInv.sinv_steps K o gs gr _ _ (zsteps_xsteps K relaxed o _ _ _ H)) as I1.
    constructor.
    - destruct (respinv_steps K relaxed o gc gs gr _ _ H Law) as (F0 & F1 & E1 & E2 & _).
      destruct (sent_spec K o gr _ _ I1) as [_ A].
      rewrite A, <- E1, !app_length.
      assert (E : length (received (clogs l)) = length F0) by now rewrite E2, map_length.
      unfold received in E. rewrite map_length in E. lia.
    - apply (ServerInv.si_wf _ _ _ _ _ I1).
    - apply (ClientInv.asteps_conv K relaxed gc). apply (zsteps_asteps K relaxed o _ _ _ H).
  Qed.

  Lemma clogs_server : forall l l1, clogs (l ++ map YS l1) = clogs l.
  Proof. intros. rewrite clogs_app, clogs_YS. apply app_nil_r. Qed.
  Lemma slogs_server : forall l l1, slogs (l ++ map YS l1) = slogs l ++ l1.
  Proof. intros. now rewrite slogs_app, slogs_YS. Qed.

  Lemma inflight_server : forall l l1,
    length (taken (clogs l)) <= length (sched (slogs l)) ->
    inflight (l ++ map YS l1) = inflight l ++ flat_map (scheduled_by o) l1.
  Proof.
    intros l l1 H. unfold inflight. rewrite clogs_server, slogs_server, ServerInv.scheduled_app.
    rewrite skipn_app. replace (length (taken (clogs l)) - length (sched (slogs l))) with 0 by lia.
    reflexivity.
  Qed.

  Lemma understood_read_as : forall v q, understood K o v q -> (forall i, v <> SvLiteralTooLong i) ->
    read_as K o (frags_bytes (rq_frags K q), v) q.
  Proof.
    intros v q Hu Hv. destruct v as [c|d| |i| | |]; destruct q as [c'|d'|]; cbn in Hu; try contradiction.
    - destruct Hu as [-> Hu]. now constructor.
    - subst d'. constructor.
    - constructor.
    - exfalso. now apply (Hv i).
  Qed.

  (** The tags of the requests are distinct. *)
  Lemma tags_distinct : forall l a x, side l a x -> orderly K relaxed o gr l ->
    NoDup (map ctag (cmds (started (cur_of a) (clogs l)))).
  Proof.
    intros l a x [_ _ (dn & E & Hr & _)] Ho.
    destruct Hr as [Hr _].
    rewrite started_cmds.
    - rewrite map_map. set (n := _ + _).
      pose proof (or_tags _ _ _ _ _ Ho) as Hd.
      rewrite <- (firstn_skipn n (enqueued (clogs l))), map_app in Hd.
      now apply NoDup_app_l in Hd.
    - rewrite E, !app_length. lia.
  Qed.

  (** A step of the server, given by its effects. *)
  Lemma jinv_server : forall l a x toS rd items pre1 G R cs l1 x' qs items' pre1' G' R' cs',
    jinv l a x toS rd items pre1 G R cs -> side l a x ->
    Forall2 (read_as K o) (staken l1) qs -> items = qs ++ items' ->
    pos K o x' toS items' pre1' G' R' ->
    stage K (fold_left asked_step l1 (asked (slogs l))) (fold_left open_step l1 (open_tag (slogs l)))
      (cur_of a) R' (x_mode x') items' G' cs' ->
    controls (completed (slogs l) ++ completed_from (open_tag (slogs l)) l1)
      (inflight l ++ flat_map (scheduled_by o) l1) cs' ->
    (forall m, cur_of a = Some m -> unfinished m ->
       ~ In (cm_tag m) (completed_from (open_tag (slogs l)) l1)) ->
    (forall t, In t (completed_from (open_tag (slogs l)) l1) -> In t (map ctag (cmds (rd ++ qs)))) ->
    (forall t, fold_left open_step l1 (open_tag (slogs l)) = Some t ->
       In t (map ctag (cmds (rd ++ qs)))) ->
    jinv (l ++ map YS l1) a x' toS (rd ++ qs) items' pre1' G' R' cs'.
  Proof.
    intros l a x toS rd items pre1 G R cs l1 x' qs items' pre1' G' R' cs'
      [J1 J2 J3 J4 J5 J6 J7 J8 J9] Sd H1 H2 H3 H4 H5 H6 H7 H8.
    constructor; rewrite ?clogs_server, ?slogs_server; auto.
    - rewrite ServerInv.staken_app. now apply Forall2_app.
    - now rewrite <- app_assoc, <- H2.
    - now rewrite asked_app, open_tag_app.
    - rewrite completed_app, inflight_server; [assumption|apply (sd_taken _ _ _ Sd)].
    - intros m Hm Hu. rewrite completed_app. intro Hin. apply in_app_or in Hin as [Hin|Hin].
      + now apply (J6 m Hm Hu).
      + now apply (H6 m Hm Hu).
    - intros t Ht. rewrite completed_app in Ht. apply in_app_or in Ht as [Ht|Ht]; auto.
      rewrite cmds_app, map_app. apply in_or_app. left. auto.
    - intros t Ht. rewrite open_tag_app in Ht. auto.
    - rewrite J9, ServerInv.scheduled_app, firstn_app.
      pose proof (sd_taken _ _ _ Sd).
      replace (length (taken (clogs l)) - length (sched (slogs l))) with 0 by lia.
      cbn [firstn]. now rewrite app_nil_r.
  Qed.

  Lemma pos_ext : forall x x' toS items pre1 G R,
    x_pre x' = x_pre x -> x_need x' = x_need x -> x_rest x' = x_rest x ->
    pos K o x toS items pre1 G R -> pos K o x' toS items pre1 G R.
  Proof.
    intros x x' toS items pre1 G R E1 E2 E3 [H1 H2 H3 H4 H5].
    constructor; rewrite ?E1, ?E3; auto. unfold head_pos in *. rewrite E2. exact H4.
  Qed.

  (** A step that reads nothing. *)
  Lemma jinv_call : forall l a x toS rd items pre1 G R cs e x' cs',
    jinv l a x toS rd items pre1 G R cs -> side l a x ->
    staken [e] = [] -> completed_from (open_tag (slogs l)) [e] = [] ->
    open_step (open_tag (slogs l)) e = open_tag (slogs l) ->
    x_pre x' = x_pre x -> x_need x' = x_need x -> x_rest x' = x_rest x ->
    stage K (asked_step (asked (slogs l)) e) (open_tag (slogs l)) (cur_of a) R (x_mode x') items G
      (cs ++ cs') ->
    controls (completed (slogs l)) (scheduled_by o e) cs' ->
    jinv (l ++ map YS [e]) a x' toS rd items pre1 G R (cs ++ cs').
  Proof.
    intros l a x toS rd items pre1 G R cs e x' cs' J Sd H1 H2 H3 E1 E2 E3 Hs Hc.
    pose proof J as [J1 J2 J3 J4 J5 J6 J7 J8 J9].
    rewrite <- (app_nil_r rd).
    eapply jinv_server; eauto; rewrite ?H2, ?app_nil_r; cbn [fold_left]; rewrite ?H3; auto.
    - rewrite H1. constructor.
    - eapply pos_ext; eauto.
    - cbn [flat_map]. rewrite app_nil_r. now apply controls_app.
    - intros t [].
  Qed.

  Lemma jinv_neutral : forall l a x toS rd items pre1 G R cs e x',
    jinv l a x toS rd items pre1 G R cs -> side l a x ->
    staken [e] = [] -> completed_from (open_tag (slogs l)) [e] = [] ->
    open_step (open_tag (slogs l)) e = open_tag (slogs l) ->
    asked_step (asked (slogs l)) e = asked (slogs l) ->
    x_pre x' = x_pre x -> x_need x' = x_need x -> x_rest x' = x_rest x -> x_mode x' = x_mode x ->
    controls (completed (slogs l)) (scheduled_by o e) [] ->
    jinv (l ++ map YS [e]) a x' toS rd items pre1 G R cs.
  Proof.
    intros l a x toS rd items pre1 G R cs e x' J Sd H1 H2 H3 H4 E1 E2 E3 E4 Hc.
    rewrite <- (app_nil_r cs). eapply jinv_call; eauto.
    rewrite app_nil_r, E4, H4. apply (j_stage _ _ _ _ _ _ _ _ _ _ J).
  Qed.

  Lemma free_modes : forall mode items, free mode items -> mode = ExCommand \/ mode = ExIdleDone.
  Proof. intros mode items [[-> _]|[-> _]]; auto. Qed.

  Lemma opening_modes : forall mode items c, opening mode items c -> mode = ExCommand \/ mode = ExIdleDone.
  Proof. intros mode items c (its & _ & H). eapply free_modes; eauto. Qed.

  Lemma stage_ready : forall op cur R items G cs,
    stage K false op cur R ExAuthenticateData items G cs ->
    R = [] /\ items = [] /\ G = [] /\ cs = [] /\
    exists h ca act, cur = Some (CmAuthenticate h ca act) /\ auth_waits act /\ op = Some (ca_tag ca).
  Proof.
    intros op cur R items G cs H. inversion H; subst; try discriminate;
      try (match goal with F : free _ _ |- _ => apply free_modes in F; now destruct F end);
      try (match goal with F : opening _ _ _ |- _ => apply opening_modes in F; now destruct F end).
    repeat split. eauto 6.
  Qed.

  Lemma stage_idle : forall aw op cur R items G cs,
    stage K aw op cur R ExIdleAccept items G cs ->
    R = [] /\ items = [] /\ G = [] /\ cs = [] /\
    exists h t act, cur = Some (CmIdle h t act) /\ idle_waits act /\ op = Some t.
  Proof.
    intros aw op cur R items G cs H. inversion H; subst; try discriminate;
      try (match goal with F : free _ _ |- _ => apply free_modes in F; now destruct F end);
      try (match goal with F : opening _ _ _ |- _ => apply opening_modes in F; now destruct F end).
    repeat split. eauto 6.
  Qed.

  Lemma polite_last : forall l e, orderly K relaxed o gr (l ++ map YS [e]) -> polite_entry (slogs l) e.
  Proof.
    intros l e Ho. apply (or_polite _ _ _ _ _ Ho (slogs l) e []). now rewrite slogs_server.
  Qed.

  Lemma jinv_xcall : forall l a x toS rd items pre1 G R cs p x' e,
    jinv l a x toS rd items pre1 G R cs -> side l a x ->
    orderly K relaxed o gr (l ++ map YS [e]) ->
    xcall x p = Some (x', e) -> sinputs [e] = [] -> (forall d, p <> SopEnqueueInput d) ->
    exists cs', jinv (l ++ map YS [e]) a x' toS rd items pre1 G R cs'.
  Proof.
    intros l a x toS rd items pre1 G R cs p x' e J Sd Ho Hx Hi Hp.
    pose proof (j_stage _ _ _ _ _ _ _ _ _ _ J) as St.
    assert (Nop : forall e0, Some (x, e0) = Some (x', e) -> scheduled_by o e0 = [] ->
      staken [e0] = [] -> completed_from (open_tag (slogs l)) [e0] = [] ->
      open_step (open_tag (slogs l)) e0 = open_tag (slogs l) ->
      asked_step (asked (slogs l)) e0 = asked (slogs l) ->
      exists cs', jinv (l ++ map YS [e]) a x' toS rd items pre1 G R cs').
    { intros e0 E0 N1 N2 N3 N4 N5. injection E0 as <- <-. exists cs. eapply jinv_neutral; eauto.
      rewrite N1. constructor. }
    destruct p as [r|d|q|t|q|t|]; cbn [xcall] in Hx.
    - unfold xenqueue in Hx. destruct (hgen_generate (x_gen x)) as [g h]. injection Hx as <- <-.
      exists cs. eapply jinv_neutral; eauto.
      apply controls_plain. pose proof (polite_last _ _ Ho) as P. cbn in P.
      destruct r as [[t b|b|c t]|d|q]; cbn; auto.
    - exfalso. eapply Hp; reflexivity.
    - destruct (x_mode x) eqn:Em; try (eapply Nop; [exact Hx|reflexivity..]).
      unfold xenqueue in Hx. destruct (hgen_generate (x_gen x)) as [g h]. injection Hx as <- <-.
      pose proof (polite_last _ _ Ho) as P. cbn in P. rewrite P, ?Em in St.
      destruct (stage_ready _ _ _ _ _ _ St) as (-> & -> & -> & -> & h0 & ca & act & Ec & Ha & Eo).
      exists ([] ++ [SmResponse (Some h) (RCcr q)]). eapply jinv_call; eauto.
      + cbn. rewrite ?Em, Ec. now apply sg_auth_asked.
      + apply controls_ctl.
    - destruct (x_mode x) eqn:Em; try (eapply Nop; [exact Hx|reflexivity..]).
      unfold xenqueue in Hx. destruct (hgen_generate (x_gen x)) as [g h]. injection Hx as <- <-.
      pose proof (polite_last _ _ Ho) as P. cbn in P. destruct P as (P & t0 & b & -> & P2).
      rewrite P, ?Em in St.
      destruct (stage_ready _ _ _ _ _ _ St) as (-> & -> & -> & -> & h0 & ca & act & Ec & Ha & Eo).
      rewrite P2 in Eo. injection Eo as ->.
      exists ([] ++ [SmResponse (Some h) (RStatus (StTagged (ca_tag ca) b))]). eapply jinv_call; eauto.
      + cbn. rewrite Ec. now apply sg_auth_fin.
      + apply controls_ctl.
    - destruct (x_mode x) eqn:Em; try (eapply Nop; [exact Hx|reflexivity..]).
      unfold xenqueue in Hx. destruct (hgen_generate (x_gen x)) as [g h]. injection Hx as <- <-.
      rewrite ?Em in St.
      destruct (stage_idle _ _ _ _ _ _ _ St) as (-> & -> & -> & -> & h0 & t & act & Ec & Ha & Eo).
      exists ([] ++ [SmResponse (Some h) (RCcr q)]). eapply jinv_call; eauto.
      + cbn. rewrite Ec. now apply sg_idle_acc.
      + apply controls_ctl.
    - destruct (x_mode x) eqn:Em; try (eapply Nop; [exact Hx|reflexivity..]).
      unfold xenqueue in Hx. destruct (hgen_generate (x_gen x)) as [g h]. injection Hx as <- <-.
      pose proof (polite_last _ _ Ho) as P. cbn in P. destruct P as (t0 & b & -> & P2).
      rewrite ?Em in St.
      destruct (stage_idle _ _ _ _ _ _ _ St) as (-> & -> & -> & -> & h0 & t & act & Ec & Ha & Eo).
      rewrite P2 in Eo. injection Eo as ->.
      exists ([] ++ [SmResponse (Some h) (RStatus (StTagged t b))]). eapply jinv_call; eauto.
      + cbn. rewrite Ec. now apply sg_idle_rej.
      + apply controls_ctl.
    - discriminate.
  Qed.

  (** *** The server reads *)

  Lemma flow_tail : forall pre1 dl ln G',
    flow_ok pre1 (dl ++ FLine ln :: G') ->
    (pre1 = [] /\ dl = []) \/ (exists d m, dl = [FLiteral d m] /\ pre1 <> []) ->
    Forall ClientInv.not_sync G'.
  Proof.
    intros pre1 dl ln G' H [[_ ->]|(d & m & -> & _)]; cbn in H; destruct H as [H _].
    - exact H.
    - now inversion H.
  Qed.

  Lemma flow_not_sync : forall pre1 G, Forall ClientInv.not_sync G -> flow_ok pre1 G.
  Proof. intros pre1 [|f G] H; [exact I|]. inversion H; subst. split; auto. Qed.

  Lemma items_nil : forall x toS pre1 G R, pos K o x toS [] pre1 G R -> x_buf x = [] /\ toS = [].
  Proof.
    intros x toS pre1 G R [E Hp Hr _ _]. cbn in E. symmetry in E.
    apply app_eq_nil in E as [-> E]. apply app_eq_nil in E as [-> ->].
    unfold x_buf. rewrite Hp. cbn in Hr. apply app_eq_nil in Hr as [-> ->]. auto.
  Qed.

  (** The command of the client that is not finished has not been read. *)
  Lemma stage_unread : forall aw op m R its G,
    stage K aw op (Some m) R ExCommand its G [] -> unfinished m ->
    exists c, In (RqCommand c) its /\ ctag c = cm_tag m.
  Proof.
    intros aw op m R its G H Hu.
    inversion H; subst; cbn in Hu; try contradiction;
      try (match goal with F : opening _ _ _ |- _ => destruct F as (i0 & -> & _) end;
           eexists; split; [apply in_or_app; right; left; reflexivity|reflexivity]).
    eexists. split; [left; reflexivity|reflexivity].
  Qed.

  Lemma stage_kinds : forall aw op cur R mode q its G cs,
    stage K aw op cur R mode (q :: its) G cs -> mode <> ExIdleAccept.
  Proof. intros aw op cur R mode q its G cs H ->. apply stage_kind in H. now destruct q. Qed.

  (** A request is read completely. *)
  Lemma jinv_read : forall l a x toS rd q its pre1 G R cs x' raw v G',
    jinv l a x toS rd (q :: its) pre1 G R cs -> side l a x -> orderly K relaxed o gr l ->
    G <> [] -> item_frags K its = G' ++ R -> Forall ClientInv.not_sync G' ->
    understood K o v q -> (forall i, v <> SvLiteralTooLong i) -> raw = frags_bytes (rq_frags K q) ->
    x_pre x' = [] -> x_need x' = 0%N -> x_rest x' ++ toS = frags_bytes G' ->
    x_mode x' = mode_after (x_mode x) v ->
    jinv (l ++ map YS [SlRx (SrxMsg raw v); SlNext (sresult raw v)]) a x' toS
      (rd ++ [q]) its [] G' R [].
  Proof.
    intros l a x toS rd q its pre1 G R cs x' raw v G' J Sd Ho HG E Hns Hu Hv -> X1 X2 X3 X4.
    set (raw := frags_bytes (rq_frags K q)).
    pose proof (j_stage _ _ _ _ _ _ _ _ _ _ J) as St.
    assert (Hok : Forall (rq_ok K o) its).
    { pose proof (started_ok K o relaxed gr l (cur_of a) Ho) as Hall.
      rewrite <- (j_started _ _ _ _ _ _ _ _ _ _ J) in Hall.
      apply Forall_app in Hall as [_ Hall]. now inversion Hall. }
    pose proof (tags_distinct _ _ _ Sd Ho) as Hd.
    rewrite <- (j_started _ _ _ _ _ _ _ _ _ _ J) in Hd.
    pose proof (stage_kind _ _ _ _ _ _ _ _ _ _ St) as Hk.
    destruct (stage_read K o _ _ _ _ _ _ _ _ _ _ v St HG E Hok Hu Hv) as [-> St'].
    set (l1 := [SlRx (SrxMsg raw v); SlNext (sresult raw v)]).
    assert (Ea : fold_left asked_step l1 (asked (slogs l)) =
      fst (read_effect (asked (slogs l)) (open_tag (slogs l)) v)).
    { destruct v as [c| | |i| | |]; cbn; try reflexivity. unfold command_event.
      destruct (cbody c); reflexivity. }
    assert (Eo : fold_left open_step l1 (open_tag (slogs l)) =
      snd (read_effect (asked (slogs l)) (open_tag (slogs l)) v)).
    { destruct v as [c| | |i| | |]; cbn; try reflexivity. unfold command_event.
      destruct (cbody c); reflexivity. }
    assert (Ef : flat_map (scheduled_by o) l1 = []).
    { destruct v as [c| | |i| | |]; cbn; try reflexivity. exfalso. eapply Hv; reflexivity. }
    (* tags completed by this step *)
    assert (Ec : forall t, In t (completed_from (open_tag (slogs l)) l1) ->
      mode_after (x_mode x) v = ExCommand /\
      ((exists c, q = RqCommand c /\ t = ctag c) \/ open_tag (slogs l) = Some t)).
    { intros t Ht. destruct v as [c| | |i| | |]; cbn in Hu; destruct q as [c'| |]; try contradiction;
        cbn in Ht; try contradiction.
      - destruct Hu as [-> _]. unfold command_event in Ht. cbn in Hk.
        destruct (x_mode x); try contradiction. cbn. destruct (cbody c') eqn:Eb; cbn in Ht; try contradiction.
        destruct Ht as [<-|[]]. eauto 6.
      - rewrite app_nil_r in Ht. destruct (open_tag (slogs l)); cbn in Ht; [|contradiction].
        destruct Ht as [<-|[]]. auto. }
    eapply jinv_server; eauto.
    - cbn. constructor; [now apply understood_read_as|constructor].
    - constructor; cbn [app]; auto.
      + left. auto.
      + now apply flow_not_sync.
    - rewrite Ea, Eo, X4. exact St'.
    - rewrite Ef, app_nil_r. apply controls_more. exact (j_ctl _ _ _ _ _ _ _ _ _ _ J).
    - intros m Hm Hun Hin. apply Ec in Hin as [Em Hin]. rewrite Em, Hm in St'.
      destruct (stage_unread _ _ _ _ _ _ St' Hun) as (c & Hc & Et).
      apply cmds_in in Hc. apply (in_map ctag) in Hc. rewrite Et in Hc.
      destruct Hin as [(c1 & -> & E1)|Hop].
      + rewrite cmds_app, map_app in Hd. cbn in Hd. rewrite <- E1 in Hd.
        apply NoDup_remove_2 in Hd. apply Hd. apply in_or_app. right. exact Hc.
      + apply (j_open _ _ _ _ _ _ _ _ _ _ J) in Hop.
        apply in_split in Hop as (u1 & u2 & Es).
        rewrite cmds_app, map_app, Es, <- app_assoc in Hd. cbn [app] in Hd.
        apply NoDup_remove_2 in Hd. apply Hd. apply in_or_app. right. apply in_or_app. right.
        change (q :: its) with ([q] ++ its). rewrite cmds_app, map_app. apply in_or_app. now right.
    - intros t Ht. rewrite cmds_app, map_app. apply in_or_app.
      apply Ec in Ht as [_ [(c & -> & ->)|Hop]].
      + right. now left.
      + left. now apply (j_open _ _ _ _ _ _ _ _ _ _ J).
    - intros t Ht. rewrite Eo in Ht. rewrite cmds_app, map_app. apply in_or_app.
      destruct v as [c| | |i| | |]; cbn in Ht; try (left; now apply (j_open _ _ _ _ _ _ _ _ _ _ J)).
      destruct q as [c'| |]; cbn in Hu; try contradiction. destruct Hu as [-> _].
      destruct (cbody c'); cbn in Ht; try (left; now apply (j_open _ _ _ _ _ _ _ _ _ _ J));
        injection Ht as <-; right; now left.
  Qed.

  Lemma items_ok : forall l a x toS rd items pre1 G R cs,
    jinv l a x toS rd items pre1 G R cs -> orderly K relaxed o gr l -> Forall (rq_ok K o) items.
  Proof.
    intros l a x toS rd items pre1 G R cs J Ho.
    pose proof (started_ok K o relaxed gr l (cur_of a) Ho) as Hall.
    rewrite <- (j_started _ _ _ _ _ _ _ _ _ _ J) in Hall. now apply Forall_app in Hall as [_ Hall].
  Qed.

  (** Where the frame that the server finds ends. *)
  Lemma sframe_line : forall x raw rest v,
    xwf K o x -> x_buf x = raw ++ rest -> sframe K o (x_mode x) raw (x_lits x) v ->
    exists w l, raw = x_pre x ++ w /\ x_rest x = w ++ rest /\
      frag_line (NfLiteral (x_need x)) w l /\
      match x_mode x with
      | ExCommand => exists q, verdict (dec_command K) (so_crlf_relaxed o) (cmd_accept o) (x_pre x ++ w) l q /\
          match v with
          | SvCommand c => q = OMsg c
          | SvLiteralTooLong i => q = ORejected i
          | SvMalformed => q = OMalformed
          | SvBareLf => q = OBareLf
          | _ => False
          end
      | ExAuthenticateData => exists q, verdict (dec_authdata K) (so_crlf_relaxed o) no_literal (x_pre x ++ w) l q /\
          match v with
          | SvAuthData d => q = OMsg d
          | SvMalformed => q = OMalformed
          | SvBareLf => q = OBareLf
          | _ => False
          end
      | ExIdleAccept => False
      | ExIdleDone => exists q, verdict (dec_idledone K) (so_crlf_relaxed o) no_literal (x_pre x ++ w) l q /\
          match v with
          | SvIdleDone => q = OMsg tt
          | SvMalformed => q = OMalformed
          | SvBareLf => q = OBareLf
          | _ => False
          end
      end.
  Proof.
    intros x raw rest v [_ Hw] Hb Hf. unfold x_buf in Hb.
    destruct (x_mode x) eqn:Em; cbn in Hf.
    - assert (Hf' : exists q, framed (dec_command K) (so_crlf_relaxed o) (cmd_accept o) raw (x_lits x) q /\
          match v with
          | SvCommand c => q = OMsg c
          | SvLiteralTooLong i => q = ORejected i
          | SvMalformed => q = OMalformed
          | SvBareLf => q = OBareLf
          | _ => False
          end).
      { destruct v; try contradiction; eexists; (split; [exact Hf|reflexivity]). }
      destruct Hf' as (q & Hf' & Hq).
      destruct (frame_line _ _ _ _ _ _ _ _ _ _ Hw Hb Hf') as (w & l & E1 & E2 & E3 & E4).
      exists w, l. eauto 7.
    - destruct Hw as (W1 & W2 & W3). destruct Hf as [_ Hf].
      assert (Hf' : exists q, framed (dec_authdata K) (so_crlf_relaxed o) no_literal raw [] q /\
          match v with
          | SvAuthData d => q = OMsg d
          | SvMalformed => q = OMalformed
          | SvBareLf => q = OBareLf
          | _ => False
          end).
      { destruct v; try contradiction; eexists; (split; [exact Hf|reflexivity]). }
      destruct Hf' as (q & Hf' & Hq). rewrite W1 in *. rewrite W3.
      destruct (frame_line _ _ _ [] [] 0%N _ _ _ _ (op_start _ _ _) Hb Hf') as (w & l & E1 & E2 & E3 & E4).
      exists w, l. eauto 7.
    - contradiction.
    - destruct Hw as (W1 & W2 & W3). destruct Hf as [_ Hf].
      assert (Hf' : exists q, framed (dec_idledone K) (so_crlf_relaxed o) no_literal raw [] q /\
          match v with
          | SvIdleDone => q = OMsg tt
          | SvMalformed => q = OMalformed
          | SvBareLf => q = OBareLf
          | _ => False
          end).
      { destruct v; try contradiction; eexists; (split; [exact Hf|reflexivity]). }
      destruct Hf' as (q & Hf' & Hq). rewrite W1 in *. rewrite W3.
      destruct (frame_line _ _ _ [] [] 0%N _ _ _ _ (op_start _ _ _) Hb Hf') as (w & l & E1 & E2 & E3 & E4).
      exists w, l. eauto 7.
  Qed.

  Lemma frag_line_ne : forall f w l, frag_line f w l -> w <> [].
  Proof.
    intros f w l H E. destruct H as [k l H|n d l H H1]; apply is_line_nonempty in H1 || apply is_line_nonempty in H;
      [subst l|apply app_eq_nil in E as [-> ->]]; cbn in *; lia.
  Qed.

  Lemma no_sync_head : forall G R d post, Forall ClientInv.not_sync G ->
    FLiteral d LSync :: post = G ++ R -> G = [] /\ R = FLiteral d LSync :: post.
  Proof.
    intros [|f G] R d post H E; [auto|]. injection E as <- _. inversion H as [|? ? Hf]; subst.
    exfalso. eapply Hf; reflexivity.
  Qed.

  Lemma cmd_accept_spec : forall i, match cmd_accept o i with
    | Some n => n = cl_length i /\ (cl_length i <= so_max_literal_size o)%N
    | None => (so_max_literal_size o < cl_length i)%N end.
  Proof. intro i. unfold cmd_accept. destruct (N.ltb _ _) eqn:E; [|split; [reflexivity|]]; lia. Qed.

  Lemma jinv_lit : forall l a x toS rd items pre1 G R cs w ln0 rest i n x',
    jinv l a x toS rd items pre1 G R cs -> side l a x -> orderly K relaxed o gr l ->
    x_mode x = ExCommand -> x_rest x = w ++ rest -> frag_line (NfLiteral (x_need x)) w ln0 ->
    dec_command K (x_pre x ++ w) = DecLit i -> cmd_accept o i = Some n ->
    x_mode x' = ExCommand -> x_pre x' = x_pre x ++ w -> x_need x' = n -> x_rest x' = rest ->
    exists pre1' G' cs', jinv (l ++ map YS [SlRx (SrxLit i)]) a x' toS rd items pre1' G' R cs'.
  Proof.
    intros l a x toS rd items pre1 G R cs w ln0 rest i n x' J Sd Ho Hm Hr Hfl Hd Ha X1 X2 X3 X4.
    pose proof (j_pos _ _ _ _ _ _ _ _ _ _ J) as P. pose proof (items_ok _ _ _ _ _ _ _ _ _ _ J Ho) as Hok.
    pose proof (j_stage _ _ _ _ _ _ _ _ _ _ J) as St.
    destruct items as [|q its].
    { exfalso. destruct (items_nil _ _ _ _ _ P) as [E _]. unfold x_buf in E.
      apply app_eq_nil in E as [_ E]. rewrite Hr in E. apply app_eq_nil in E as [E _].
      now apply (frag_line_ne _ _ _ Hfl). }
    pose proof (stage_kind _ _ _ _ _ _ _ _ _ _ St) as Hk. rewrite Hm in Hk. cbn in Hk.
    destruct q as [c| |]; try contradiction. clear Hk.
    pose proof (Forall_inv Hok) as Hq. pose proof (Forall_inv_tail Hok) as Hits.
    destruct (next_line_exists K o _ _ _ _ _ _ _ Hq P) as (dl & ln & post & N).
    destruct (line_found K o _ _ _ _ _ _ _ _ _ _ _ _ _ P N Hr Hfl) as (-> & -> & G' & EG & EB & EP).
    pose proof N as [N1 N2 N3 N4 N5 N6 N7 N8].
    assert (HG : G <> []) by (rewrite EG; destruct dl; discriminate).
    pose proof (po_flow _ _ _ _ _ _ _ _ P) as Hflow. rewrite EG in Hflow.
    pose proof (flow_tail _ _ _ _ Hflow N7) as Hns.
    assert (Ebb : x_pre x ++ frags_bytes dl ++ ln = frags_bytes (pre1 ++ dl) ++ ln).
    { rewrite (po_pre _ _ _ _ _ _ _ _ P), ClientInv.frags_bytes_app. now rewrite <- app_assoc. }
    rewrite Ebb in Hd. cbn in N8. rewrite Hd in N8.
    destruct N8 as [[_ N8]|(d & m & post' & -> & N8 & N9)]; [discriminate|].
    injection N8 as ->.
    pose proof (cmd_accept_spec (CmdLit (ctag c) (N.of_nat (length d)) m)) as Hacc.
    rewrite Ha in Hacc. destruct Hacc as [Hn Hle]. cbn in Hle, Hn.
    pose proof (po_eq _ _ _ _ _ _ _ _ P) as Peq.
    assert (Efb : frags_bytes (pre1 ++ dl ++ [FLine ln]) = frags_bytes (pre1 ++ dl) ++ ln).
    { rewrite app_assoc, ClientInv.frags_bytes_app. unfold frags_bytes at 2. cbn. now rewrite app_nil_r. }
    assert (Ppos : forall R0, R0 = R -> pos K o x' toS (RqCommand c :: its) (pre1 ++ dl ++ [FLine ln]) G' R0).
    { intros R0 ->. constructor.
      - rewrite Peq, EG. rewrite <- !app_assoc. reflexivity.
      - now rewrite X2, Ebb, Efb.
      - now rewrite X4.
      - right. exists c, its, d, m, post'. split; [reflexivity|].
        split; [cbn in N1; rewrite N1, <- !app_assoc; reflexivity|].
        split; [now rewrite X3|]. split.
        + rewrite <- app_assoc. apply Forall_app. rewrite <- app_assoc.
          apply Forall_app in N5 as [N5 N5']. split; [exact N5|]. apply Forall_app. split; [exact N5'|].
          constructor; [exact I|]. constructor; [exact Hle|constructor].
        + split; [now rewrite Efb|]. destruct pre1; [destruct dl|]; discriminate.
      - now apply flow_not_sync. }
    destruct m.
    - (* synchronizing *)
      destruct (no_sync_head _ _ _ _ Hns EP) as [-> ER]. cbn [app] in ER.
      destruct (stage_literal K o _ _ _ _ _ _ _ _ _ _ _ St HG ER Hits)
        as (-> & _ & -> & h & fs & act & Ec & Hreg & Hl & ER2).
      exists (pre1 ++ dl ++ [FLine ln]), [], [SmResponse None (accept_response o (CmdLit (ctag c) (N.of_nat (length d)) LSync))].
      rewrite <- (app_nil_r rd). eapply jinv_server; eauto.
      + constructor.
      + cbn. rewrite X1, Ec, ER2. now apply (sg_acc K _ _ h c fs act d).
      + cbn. rewrite app_nil_r.
        apply (controls_app _ _ [] _ _ (j_ctl _ _ _ _ _ _ _ _ _ _ J)). apply controls_ctl.
      + cbn. contradiction.
      + rewrite app_nil_r. apply (j_open _ _ _ _ _ _ _ _ _ _ J).
    - (* non-synchronizing *)
      assert (HG' : G' <> []).
      { intros ->. cbn in EP. destruct (stage_R _ _ _ _ _ _ _ _ _ St) as [->|[(lit & fs & ->)|(line & ->)]];
          discriminate. }
      exists (pre1 ++ dl ++ [FLine ln]), G', cs.
      rewrite <- (app_nil_r rd). eapply jinv_server; eauto.
      + constructor.
      + cbn. rewrite X1, <- Hm. eapply stage_flow; eauto.
      + cbn. rewrite !app_nil_r. apply (j_ctl _ _ _ _ _ _ _ _ _ _ J).
      + cbn. contradiction.
      + rewrite app_nil_r. apply (j_open _ _ _ _ _ _ _ _ _ _ J).
  Qed.

  Lemma jinv_msg : forall l a x toS rd items pre1 G R cs raw rest v x',
    jinv l a x toS rd items pre1 G R cs -> side l a x -> orderly K relaxed o gr l ->
    x_buf x = raw ++ rest -> sframe K o (x_mode x) raw (x_lits x) v ->
    x_mode x' = mode_after (x_mode x) v -> x_pre x' = [] -> x_need x' = 0%N -> x_rest x' = rest ->
    exists rd' items' pre1' G' R' cs',
      jinv (l ++ map YS [SlRx (SrxMsg raw v); SlNext (sresult raw v)]) a x' toS
        rd' items' pre1' G' R' cs'.
  Proof.
    intros l a x toS rd items pre1 G R cs raw rest v x' J Sd Ho Hb Hf X1 X2 X3 X4.
    pose proof (j_pos _ _ _ _ _ _ _ _ _ _ J) as P. pose proof (items_ok _ _ _ _ _ _ _ _ _ _ J Ho) as Hok.
    pose proof (j_stage _ _ _ _ _ _ _ _ _ _ J) as St.
    destruct (sframe_line _ _ _ _ (sd_wf _ _ _ Sd) Hb Hf) as (w & ln0 & Eraw & Hr & Hfl & Hv).
    destruct items as [|q its].
    { exfalso. destruct (items_nil _ _ _ _ _ P) as [E _]. unfold x_buf in E.
      apply app_eq_nil in E as [_ E]. rewrite Hr in E. apply app_eq_nil in E as [E _].
      now apply (frag_line_ne _ _ _ Hfl). }
    pose proof (stage_kind _ _ _ _ _ _ _ _ _ _ St) as Hk.
    pose proof (Forall_inv Hok) as Hq. pose proof (Forall_inv_tail Hok) as Hits.
    destruct (next_line_exists K o _ _ _ _ _ _ _ Hq P) as (dl & ln & post & N).
    destruct (line_found K o _ _ _ _ _ _ _ _ _ _ _ _ _ P N Hr Hfl) as (-> & -> & G' & EG & EB & EP).
    pose proof N as [N1 N2 N3 N4 N5 N6 N7 N8].
    assert (HG : G <> []) by (rewrite EG; destruct dl; discriminate).
    pose proof (po_flow _ _ _ _ _ _ _ _ P) as Hflow. rewrite EG in Hflow.
    pose proof (flow_tail _ _ _ _ Hflow N7) as Hns.
    assert (Ebb : x_pre x ++ frags_bytes dl ++ ln = frags_bytes (pre1 ++ dl) ++ ln).
    { rewrite (po_pre _ _ _ _ _ _ _ _ P), ClientInv.frags_bytes_app. now rewrite <- app_assoc. }
    rewrite Ebb in Hv, Eraw. subst raw.
    assert (Whole : post = [] -> understood K o v q -> (forall i, v <> SvLiteralTooLong i) ->
      exists rd' items' pre1' G'0 R' cs',
        jinv (l ++ map YS [SlRx (SrxMsg (frags_bytes (pre1 ++ dl) ++ ln) v);
                           SlNext (sresult (frags_bytes (pre1 ++ dl) ++ ln) v)]) a x' toS
          rd' items' pre1' G'0 R' cs').
    { intros -> Hu Hnl. cbn [app] in EP.
      exists (rd ++ [q]), its, [], G', R, []. eapply jinv_read; eauto; try (now rewrite X4); try (now rewrite X1, Em).
      rewrite N1, app_assoc, (ClientInv.frags_bytes_app (pre1 ++ dl)). unfold frags_bytes at 3. cbn.
      now rewrite app_nil_r. }
    destruct (x_mode x) eqn:Em; cbn in Hk; destruct q as [c|d|]; try contradiction.
    - (* command *)
      destruct Hv as (qq & Hver & Hv). cbn in N8.
      destruct N8 as [[-> N8]|(d & m & post' & -> & N8 & N9)].
      + pose proof (verdict_ok _ _ _ _ _ _ _ Hver N4 N8) as ->.
        destruct v as [c'| | |i| | |]; try contradiction; try discriminate. injection Hv as <-.
        apply Whole; [reflexivity| |intros i Ei; discriminate].
        cbn. split; [reflexivity|]. cbn in N1. rewrite N1. rewrite app_assoc.
        apply Forall_app. split; [exact N5|]. constructor; [exact I|constructor].
      + destruct (verdict_lit _ _ _ _ _ _ _ Hver N4 N8) as [-> Hacc].
        destruct v as [c'| | |i| | |]; try contradiction; try discriminate. injection Hv as <-.
        pose proof (cmd_accept_spec (CmdLit (ctag c) (N.of_nat (length d)) m)) as Hs.
        rewrite Hacc in Hs. cbn in Hs.
        assert (m = LSync) as ->.
        { destruct m; [reflexivity|]. exfalso. destruct Hq as [_ [Hq _]].
          assert (Hin : In (FLiteral d LNonSync) (enc_command K c)).
          { cbn in N1. rewrite N1. apply in_or_app. right. apply in_or_app. right. right. now left. }
          specialize (Hq d Hin). lia. }
        destruct (no_sync_head _ _ _ _ Hns EP) as [-> ER]. cbn [app] in ER.
        destruct (stage_literal K o _ _ _ _ _ _ _ _ _ _ _ St HG ER Hits)
          as (-> & _ & -> & h & fs & act & Ec & Hreg & Hl & ER2).
        exists (rd ++ [RqCommand c]), [], [], [], [].
        exists [SmResponse None (reject_response o (CmdLit (ctag c) (N.of_nat (length d)) LSync))].
        eapply jinv_server; eauto.
        * cbn. constructor; [|constructor].
          replace (frags_bytes (pre1 ++ dl) ++ ln) with (frags_bytes (pre1 ++ dl ++ [FLine ln])).
          2:{ rewrite app_assoc, (ClientInv.frags_bytes_app (pre1 ++ dl)).
              unfold frags_bytes at 2. cbn. now rewrite app_nil_r. }
          apply (ra_rejected K o c _ d post'); [cbn in N1; rewrite N1, <- !app_assoc; reflexivity| |auto].
          rewrite app_assoc. apply Forall_app. split; [exact N5|]. constructor; [exact I|constructor].
        * constructor; [reflexivity|exact X2|now rewrite X4|left; auto|exact I].
        * cbn. rewrite X1, Ec. now apply (sg_rej K _ _ h c fs act d).
        * cbn. rewrite app_nil_r.
          apply (controls_app _ _ [] _ _ (j_ctl _ _ _ _ _ _ _ _ _ _ J)). apply controls_ctl.
        * cbn. contradiction.
        * cbn. intros t Ht. rewrite cmds_app, map_app. apply in_or_app. left.
          now apply (j_open _ _ _ _ _ _ _ _ _ _ J).
    - destruct Hv as (qq & Hver & Hv). cbn in N8. destruct N8 as (-> & -> & -> & N8).
      pose proof (verdict_ok _ _ _ _ _ _ _ Hver N4 N8) as ->.
      destruct v as [c'| | |i| | |]; try contradiction; try discriminate. injection Hv as <-.
      apply Whole; [reflexivity|reflexivity|intros i Ei; discriminate].
    - destruct Hv as (qq & Hver & Hv). cbn in N8. destruct N8 as (-> & -> & -> & N8).
      pose proof (verdict_ok _ _ _ _ _ _ _ Hver N4 N8) as ->.
      destruct v as [c'| | |i| | |]; try contradiction; try discriminate.
      apply Whole; [reflexivity|exact I|intros i Ei; discriminate].
  Qed.

  (** All steps of the server. *)
  Lemma jinv_xstep : forall l a x toS rd items pre1 G R cs l1 x',
    jinv l a x toS rd items pre1 G R cs -> side l a x ->
    orderly K relaxed o gr (l ++ map YS l1) -> xstep K o x l1 x' -> sinputs l1 = [] ->
    exists rd' items' pre1' G' R' cs',
      jinv (l ++ map YS l1) a x' toS rd' items' pre1' G' R' cs'.
  Proof.
    intros l a x toS rd items pre1 G R cs l1 x' J Sd Ho Hx Hi.
    pose proof (orderly_app _ _ _ _ _ _ Ho) as Ho0.
    destruct Hx as [x p x' e Hx|x m q E1 E2|x m e E1 E2|x s1 E1 E2
      |x s1 w ln rest i n E1 E2 E3 E4 E5 E6 E7 E8|x s1 raw rest v E1 E2 E3 E4
      |x s1 raw rest E1 E2 E3 E4 E5].
    - assert (D : (exists d, p = SopEnqueueInput d) \/ forall d, p <> SopEnqueueInput d).
      { destruct p; try (right; intros; discriminate). left. eauto. }
      destruct D as [[d ->]|D].
      + cbn in Hx. injection Hx as <- <-. cbn in Hi. rewrite app_nil_r in Hi. subst d.
        exists rd, items, pre1, G, R, cs. eapply jinv_neutral; eauto; [apply app_nil_r|constructor].
      + destruct (jinv_xcall _ _ _ _ _ _ _ _ _ _ p x' e J Sd Ho Hx Hi D) as (cs' & J'). eauto 7.
    - exists rd, items, pre1, G, R, cs. eapply jinv_neutral; eauto. constructor.
    - exists rd, items, pre1, G, R, cs. eapply jinv_neutral; eauto;
        try (destruct m as [g|[h|] r]; cbn in E2; try discriminate; injection E2 as <-; reflexivity).
      constructor.
    - exists rd, items, pre1, G, R, cs. eapply jinv_neutral; eauto. constructor.
    - destruct (jinv_lit _ _ _ _ _ _ _ _ _ _ w ln rest i n
        (XState (x_gen x) (ss_push s1 (when_sync i (SmResponse None (accept_response o i))))
           ExCommand (x_pre x ++ w) (x_lits x ++ [i]) n rest) J Sd Ho0 E2 E3 E4 E7 E8
        eq_refl eq_refl eq_refl eq_refl) as (p' & G' & cs' & J'). eauto 7.
    - apply (jinv_msg _ _ _ _ _ _ _ _ _ _ raw rest v
        (x_start x (ss_push s1 (pushed_by o v)) (mode_after (x_mode x) v) rest) J Sd Ho0 E2 E3
        eq_refl eq_refl eq_refl eq_refl).
    - exfalso. pose proof (j_pos _ _ _ _ _ _ _ _ _ _ J) as P.
      pose proof (items_ok _ _ _ _ _ _ _ _ _ _ J Ho0) as Hok.
      destruct items as [|q its].
      + destruct (items_nil _ _ _ _ _ P) as [E _]. rewrite E in E4.
        symmetry in E4. apply app_eq_nil in E4 as [-> _]. pose proof (or_size _ _ _ _ _ Ho). cbn in E5. lia.
      + inversion Hok; subst.
        eapply never_too_long; eauto. apply (sd_wf _ _ _ Sd).
  Qed.
End Server.
