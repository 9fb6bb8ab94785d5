(** The steps of the client keep the joint invariant. *)
From Coq Require Import List NArith Bool PeanoNat Lia ZifyBool ZifyNat ZifyN.
From Verif Require Import Base Types Codec Handle Receive ServerSend ClientSend Client Server
  SpecFraming SpecClient SpecServer ReceiveProofs ClientRecv ServerRecv ClientAbs ServerAbs
  System SystemAbs SpecSystem SystemLog SystemPos SystemResp SystemStage SystemServer.
From Verif Require ClientInv ServerInv ClientThms.
Import ListNotations.

Section Client.
  Variable K : Codecs.
  Variable relaxed : bool.
  Variable o : soptions.
  Variable gc gs : hgen.
  Variable gr : greeting.

  Notation zsteps := (zsteps K relaxed o).
  Notation sched := (scheduled o gr).
  Notation cur_of a := (cs_current (a_send a)).
  Notation jinv := (jinv K o gr).
  Notation side := (side K o gr).
  Notation inflight := (inflight o gr).

  Lemma clogs_client : forall l l1, clogs (l ++ map YC l1) = clogs l ++ l1.
  Proof. intros. now rewrite clogs_app, clogs_YC. Qed.
  Lemma slogs_client : forall l l1, slogs (l ++ map YC l1) = slogs l.
  Proof. intros. rewrite slogs_app, slogs_YC. apply app_nil_r. Qed.

  (** *** What is sent next *)

  Lemma enc_ok_lines : forall c p fs ln, enc_ok K c p fs -> In (FLine ln) fs -> is_line ln.
  Proof.
    intros c p fs ln H. induction H as [p y H1 H2 H3|p y d m fs H1 H2 H3 H4 IH]; intro Hin.
    - destruct Hin as [E|[]]. now injection E as <-.
    - destruct Hin as [E|[E|Hin]]; [now injection E as <-|discriminate|auto].
  Qed.

  Lemma item_lines : forall items ln, Forall (rq_ok K o) items -> In (FLine ln) (item_frags K items) ->
    is_line ln.
  Proof.
    intros items ln H Hin. unfold item_frags in Hin. apply in_concat in Hin as (fs & Hfs & Hin).
    apply in_map_iff in Hfs as (q & <- & Hq). rewrite Forall_forall in H. specialize (H q Hq).
    destruct q as [c|d|]; destruct H as [H _]; cbn in Hin.
    - eapply enc_ok_lines; eauto.
    - destruct H as (y & E & H & _). rewrite E in Hin. destruct Hin as [E2|[]]. now injection E2 as <-.
    - destruct H as (y & E & H & _). rewrite E in Hin. destruct Hin as [E2|[]]. now injection E2 as <-.
  Qed.

  Lemma literal_line : forall x toS items pre1 lit fs,
    pos K o x toS items pre1 [] (FLiteral lit LSync :: fs) -> Forall (rq_ok K o) items ->
    pre1 <> [] /\ exists ln fs', fs = FLine ln :: fs' /\ is_line ln.
  Proof.
    intros x toS items pre1 lit fs [E _ _ Hh _] Hok. cbn [app] in E.
    destruct Hh as [[-> _]|(c & its & d & m & post & -> & Ec & _ & _ & Hk & Hne)].
    - exfalso. cbn in E. destruct items as [|q its]; [discriminate|].
      destruct (item_frags_line K o q its Hok) as (y & fs' & E'). rewrite E' in E. discriminate.
    - split; [exact Hne|]. unfold item_frags in E. cbn [map concat] in E. cbn [rq_frags] in E.
      rewrite Ec, <- app_assoc in E. apply app_inv_head in E. injection E as _ _ <-.
      destruct (enc_ok_step _ _ _ _ Hk) as (ln & post' & -> & Hl & _). cbn. eauto.
  Qed.

  Lemma line_bytes_ne : forall ln b, is_line ln -> ln ++ b <> [].
  Proof. intros ln b H E. apply app_eq_nil in E as [-> _]. apply is_line_nonempty in H. cbn in H. lia. Qed.

  (** [send_state.next] with a current message. *)
  Lemma stage_progress : forall aw op m R mode items pre1 G cs q s r,
    stage K aw op (Some m) R mode items G cs -> cs_progress q m = (s, r) ->
    (forall lit fs, R = FLiteral lit LSync :: fs -> G = [] ->
       pre1 <> [] /\ exists ln fs', fs = FLine ln :: fs' /\ is_line ln) ->
    (forall ln, R = [FLine ln] -> is_line ln) ->
    (forall c, items = [RqCommand c] -> item_frags K items = pre1 ++ G ++ R) ->
    cs_queue s = q /\
    match r with
    | CsOk e =>
        (e = None \/ exists e', e = Some e' /\ is_terminal (cs_event_ev e') = false) /\
        (exists m', cs_current s = Some m' /\ stage K aw op (Some m') R mode items G cs /\
           cm_tag m' = cm_tag m /\ (unfinished m' -> unfinished m)) \/
        (exists e', e = Some e' /\ is_terminal (cs_event_ev e') = true /\
           cs_current s = None /\ stage K aw op None R mode items G cs)
    | CsOutput b =>
        exists m' pushed R', cs_current s = Some m' /\ R = pushed ++ R' /\ b = frags_bytes pushed /\
          G = [] /\ stage K aw op (Some m') R' mode items pushed cs /\ flow_ok pre1 pushed /\
          cm_tag m' = cm_tag m /\ (unfinished m' -> unfinished m)
    | CsPanic => False
    end.
  Proof.
    intros aw op m R mode items pre1 G cs q s r St H Hlit Hln Heq.
    assert (Keep : forall m' ev, s = {| cs_queue := q; cs_current := Some m' |} -> r = CsOk ev ->
      (ev = None \/ exists e', ev = Some e' /\ is_terminal (cs_event_ev e') = false) ->
      stage K aw op (Some m') R mode items G cs -> cm_tag m' = cm_tag m ->
      (unfinished m' -> unfinished m) ->
      cs_queue s = q /\
      match r with
      | CsOk e =>
          (e = None \/ exists e', e = Some e' /\ is_terminal (cs_event_ev e') = false) /\
          (exists m', cs_current s = Some m' /\ stage K aw op (Some m') R mode items G cs /\
             cm_tag m' = cm_tag m /\ (unfinished m' -> unfinished m)) \/
          (exists e', e = Some e' /\ is_terminal (cs_event_ev e') = true /\
             cs_current s = None /\ stage K aw op None R mode items G cs)
      | CsOutput b =>
          exists m' pushed R', cs_current s = Some m' /\ R = pushed ++ R' /\ b = frags_bytes pushed /\
            G = [] /\ stage K aw op (Some m') R' mode items pushed cs /\ flow_ok pre1 pushed /\
            cm_tag m' = cm_tag m /\ (unfinished m' -> unfinished m)
      | CsPanic => False
      end).
    { intros m' ev -> -> He Hst Ht Hu. cbn. split; [reflexivity|]. left. split; [exact He|]. eauto 7. }
    unfold cs_progress in H.
    inversion St as
      [
      |h c fs mode' items' G0 Hc Hf
      |h c fs act lit mode' items' G0 cpre Hc Hl Hop HG0 Hcp
      |h c fs act lit qq Hc Hl
      |h c fs act lit b Hc Hl Hb
      |h c fs lit Hc
      |h ca act mode' items' G0 Ha Hop
      |h ca act Ha Haw Hoo
      |h ca act hh qq Ha Haw Hoo
      |h ca Haw Hoo
      |h ca d line Haw Hoo He
      |h ca act d G0 Ha Haw Hoo
      |h ca act hh b Ha
      |h t act mode' items' G0 Ha Hop
      |h t act Ha Hoo
      |h t act hh qq Ha Hoo
      |h t Hoo
      |h t line Hoo He
      |h t mode' items' G0 Hf
      |h t act hh b Ha]; subst.
    - (* sent *)
      cbn in H. injection H as <- <-. cbn. split; [reflexivity|]. right. eexists.
      split; [reflexivity|]. split; [reflexivity|]. split; [reflexivity|]. now apply sg_none.
    - (* wait *)
      destruct Hl as [-> | ->]; cbn in H; injection H as <- <-.
      + eapply Keep; eauto. eapply sg_wait; eauto. now right.
      + eapply Keep; eauto.
    - destruct Hl as [-> | ->]; cbn in H; injection H as <- <-.
      + eapply Keep; eauto. eapply sg_acc; eauto. now right.
      + eapply Keep; eauto.
    - destruct Hl as [-> | ->]; cbn in H; injection H as <- <-.
      + eapply Keep; eauto. eapply (sg_rej K _ _ h c fs _ lit); eauto. now right.
      + eapply Keep; eauto.
    - (* push *)
      destruct (Hlit _ _ eq_refl eq_refl) as (Hne & ln & fs' & -> & Hl).
      cbn [cm_push_to_buffer] in H.
      destruct (push_fragments (FLine ln :: fs')) as [[out lm] rest] eqn:Ep.
      destruct (ClientInv.push_fragments_spec _ _ _ _ Ep) as (pushed & Efs & Eout & Hns & Hrest).
      assert (Hout : opt_bytes (Some lit) ++ out <> []).
      { cbn. destruct pushed as [|f pushed].
        - cbn in Efs. destruct lm; [discriminate|]. cbn in Efs. rewrite (Hrest eq_refl) in Efs. discriminate.
        - injection Efs as <- Efs. rewrite Eout. unfold frags_bytes. cbn [map concat frag_data].
          intro E. apply app_eq_nil in E as [_ E]. now apply line_bytes_ne in E. }
      destruct (opt_bytes (Some lit) ++ out) as [|b0 bs] eqn:Eo; [congruence|].
      injection H as <- <-. cbn [cs_queue cs_current]. split; [reflexivity|].
      exists (CmCommand h c rest (CaWaitingForFragmentsSent lm)), (FLiteral lit LSync :: pushed),
        (ClientInv.lit_of lm ++ rest).
      split; [reflexivity|]. split; [cbn; now rewrite <- Efs|].
      split. { rewrite <- Eo. cbn. unfold frags_bytes. cbn. now rewrite Eout. }
      split; [reflexivity|]. split.
      { destruct lm as [lit'|].
        - cbn. eapply (sg_wait K _ _ h c rest _ lit' _ _ _ (pre1 ++ FLiteral lit LSync :: pushed)); auto.
          + now left.
          + exists []. split; [reflexivity|]. left. auto.
          + discriminate.
          + specialize (Heq c eq_refl). unfold item_frags in Heq. cbn in Heq. rewrite app_nil_r in Heq.
            rewrite Heq, Efs. cbn. rewrite <- app_assoc. reflexivity.
        - cbn. rewrite (Hrest eq_refl). apply sg_sent; auto.
          left. split; [reflexivity|]. constructor; [exact Hc|constructor]. }
      split; [cbn; split; [exact Hns|congruence]|]. split; [reflexivity|].
      intros _. exact I.
    - destruct Ha as [-> | ->]; cbn in H; injection H as <- <-; eapply Keep; eauto.
      + apply sg_auth_unread; auto. now right.
    - destruct Ha as [[-> | ->] | ->]; cbn in H; injection H as <- <-; eapply Keep; eauto.
      + apply sg_auth_ready; auto. left. now right.
      + apply sg_auth_ready; auto. left. now right.
    - destruct Ha as [[-> | ->] | ->]; cbn in H; injection H as <- <-; eapply Keep; eauto.
      + apply sg_auth_asked; auto. left. now right.
      + apply sg_auth_asked; auto. left. now right.
    - cbn in H. injection H as <- <-. eapply Keep; eauto.
    - (* data *)
      pose proof (Hln line eq_refl) as Hl. cbn in H. destruct line as [|b0 bs]; [apply is_line_nonempty in Hl; cbn in Hl; lia|].
      injection H as <- <-. cbn. split; [reflexivity|].
      exists (CmAuthenticate h ca AaWaitingForAuthenticateDataSent), [FLine (b0 :: bs)], [].
      split; [reflexivity|]. split; [reflexivity|]. split; [cbn; unfold frags_bytes; cbn; now rewrite app_nil_r|].
      split; [reflexivity|]. split; [apply sg_auth_answer; auto; now right|].
      split; [split; [constructor|intros _ d'; discriminate]|]. auto.
    - destruct Ha as [[-> | ->] | ->]; cbn in H; injection H as <- <-; eapply Keep; eauto.
      + apply sg_auth_answer; auto. left. now right.
      + apply sg_auth_answer; auto. left. now right.
    - destruct Ha as [[-> | ->] | ->]; cbn in H; injection H as <- <-; eapply Keep; eauto.
      + apply sg_auth_fin; auto. left. now right.
      + apply sg_auth_fin; auto. left. now right.
    - destruct Ha as [-> | ->]; cbn in H; injection H as <- <-; eapply Keep; eauto.
      + apply sg_idle_unread; auto. now right.
    - destruct Ha as [-> | ->]; cbn in H; injection H as <- <-; eapply Keep; eauto.
      + apply sg_idle_read; auto. now right.
    - destruct Ha as [-> | ->]; cbn in H; injection H as <- <-; eapply Keep; eauto.
      + apply sg_idle_acc; auto. now right.
    - cbn in H. injection H as <- <-. eapply Keep; eauto.
    - pose proof (Hln line eq_refl) as Hl. cbn in H. destruct line as [|b0 bs]; [apply is_line_nonempty in Hl; cbn in Hl; lia|].
      injection H as <- <-. cbn. split; [reflexivity|].
      exists (CmIdle h t IaWaitingForIdleDoneSent), [FLine (b0 :: bs)], [].
      split; [reflexivity|]. split; [reflexivity|]. split; [cbn; unfold frags_bytes; cbn; now rewrite app_nil_r|].
      split; [reflexivity|]. split; [apply sg_idle_sent; right; split; [reflexivity|]; exists []; auto|].
      split; [split; [constructor|intros _ d'; discriminate]|]. auto.
    - cbn in H. injection H as <- <-. cbn. split; [reflexivity|]. right. eexists.
      split; [reflexivity|]. split; [reflexivity|]. split; [reflexivity|]. now apply sg_none.
    - destruct Ha as [-> | ->]; cbn in H; injection H as <- <-; eapply Keep; eauto.
      + apply sg_idle_rej; auto. now right.
  Qed.

  (** *** Steps of the client, given by their effects *)

  Lemma jinv_client : forall l a x toS rd items pre1 G R cs l1 a' toS' items' G' R' cs',
    jinv l a x toS rd items pre1 G R cs ->
    rd ++ items' = started (cur_of a') (clogs l ++ l1) ->
    pos K o x toS' items' pre1 G' R' ->
    stage K (asked (slogs l)) (open_tag (slogs l)) (cur_of a') R' (x_mode x) items' G' cs' ->
    controls (completed (slogs l)) (inflight (l ++ map YC l1)) cs' ->
    (forall m, cur_of a' = Some m -> unfinished m -> ~ In (cm_tag m) (completed (slogs l))) ->
    reported_all (events (clogs l ++ l1)) =
      visible (firstn (length (taken (clogs l ++ l1))) (sched (slogs l))) ->
    jinv (l ++ map YC l1) a' x toS' rd items' pre1 G' R' cs'.
  Proof.
    intros l a x toS rd items pre1 G R cs l1 a' toS' items' G' R' cs'
      [J1 J2 J3 J4 J5 J6 J7 J8 J9] H1 H2 H3 H4 H5 H6.
    constructor; rewrite ?clogs_client, ?slogs_client; auto.
  Qed.

  Lemma inflight_send : forall l l1, taken l1 = [] -> inflight (l ++ map YC l1) = inflight l.
  Proof.
    intros l l1 H. unfold SystemServer.inflight.
    now rewrite clogs_client, slogs_client, ClientInv.taken_app, H, app_nil_r.
  Qed.

  Lemma events_app : forall a b, events (a ++ b) = events a ++ events b.
  Proof.
    induction a as [|e a IH]; intro b; [reflexivity|].
    destruct e as [| | | | |[]|]; cbn; now rewrite ?IH.
  Qed.

  Lemma reported_app : forall a b, reported_all (a ++ b) = reported_all a ++ reported_all b.
  Proof.
    induction a as [|e a IH]; intro b; [reflexivity|].
    cbn. destruct (reported e); cbn; now rewrite IH.
  Qed.

  (** A step in which nothing is received. *)
  Lemma jinv_send : forall l a x toS rd items pre1 G R cs l1 a' toS' items' G' R',
    jinv l a x toS rd items pre1 G R cs ->
    taken l1 = [] -> reported_all (events l1) = [] ->
    rd ++ items' = started (cur_of a') (clogs l ++ l1) ->
    pos K o x toS' items' pre1 G' R' ->
    stage K (asked (slogs l)) (open_tag (slogs l)) (cur_of a') R' (x_mode x) items' G' cs ->
    (forall m, cur_of a' = Some m -> unfinished m -> ~ In (cm_tag m) (completed (slogs l))) ->
    jinv (l ++ map YC l1) a' x toS' rd items' pre1 G' R' cs.
  Proof.
    intros l a x toS rd items pre1 G R cs l1 a' toS' items' G' R' J H1 H2 H3 H4 H5 H6.
    eapply jinv_client; eauto.
    - rewrite inflight_send by assumption. apply (j_ctl _ _ _ _ _ _ _ _ _ _ _ _ _ J).
    - rewrite events_app, reported_app, H2, app_nil_r, ClientInv.taken_app, H1, app_nil_r.
      apply (j_vis _ _ _ _ _ _ _ _ _ _ _ _ _ J).
  Qed.

  (** Requests in the log, when the command stays the same. *)
  Lemma started_same : forall a l l1 cur',
    ClientInv.conv_inv K a l -> ClientInv.no_end l1 ->
    match cur_of a, cur' with None, None => True | Some _, Some _ => True | _, _ => False end ->
    started cur' (l ++ l1) =
    started (cur_of a) l ++ match cur' with Some _ => answers (exchange l1) | None => [] end.
  Proof.
    intros a l l1 cur' (dn & E & [Hr _] & _) Hn Hc.
    destruct (cur_of a) as [m|] eqn:Em; destruct cur' as [m'|]; try contradiction.
    - apply started_keep; auto.
      assert (length (ClientInv.cur_cmd (Some m)) = 1) by now destruct m.
      rewrite E, !app_length. lia.
    - rewrite app_nil_r. apply started_none; auto. rewrite E, app_length. lia.
  Qed.

  (** A step in which nothing changes but the current message, which stays the same. *)
  Lemma jinv_keep : forall l a x toS rd items pre1 G R cs l1 a',
    jinv l a x toS rd items pre1 G R cs -> side l a x ->
    taken l1 = [] -> reported_all (events l1) = [] -> ClientInv.no_end l1 -> answers (exchange l1) = [] ->
    cur_of a' = cur_of a \/
    (exists m m', cur_of a = Some m /\ cur_of a' = Some m' /\ cm_tag m' = cm_tag m /\
       (unfinished m' -> unfinished m) /\
       stage K (asked (slogs l)) (open_tag (slogs l)) (Some m') R (x_mode x) items G cs) ->
    jinv (l ++ map YC l1) a' x toS rd items pre1 G R cs.
  Proof.
    intros l a x toS rd items pre1 G R cs l1 a' J Sd H1 H2 H3 H4 Hc.
    pose proof J as [J1 J2 J3 J4 J5 J6 J7 J8 J9].
    assert (E : started (cur_of a') (clogs l ++ l1) = started (cur_of a) (clogs l)).
    { rewrite (started_same a _ _ _ (sd_conv _ _ _ _ _ _ Sd) H3).
      - rewrite H4. destruct (cur_of a'); apply app_nil_r.
      - destruct Hc as [->|(m & m' & -> & -> & _)]; [destruct (cur_of a)|]; exact I. }
    eapply jinv_send; eauto.
    - now rewrite E.
    - destruct Hc as [->|(m & m' & Em & -> & _ & _ & Hs)]; [exact J4|exact Hs].
    - destruct Hc as [->|(m & m' & Em & Em' & Ht & Hu & Hs)]; [exact J6|].
      intros m0 Hm0 Hun. rewrite Em' in Hm0. injection Hm0 as <-. rewrite Ht. apply J6; auto.
  Qed.

  (** The current command is resolved. *)
  Lemma started_resolved : forall a l l1 t m,
    ClientInv.conv_inv K a l -> cur_of a = Some m -> ClientInv.no_end l1 -> is_terminal t = true ->
    exchange (l1 ++ [ClNext (IEvent t)]) = [] ->
    started None (l ++ l1 ++ [ClNext (IEvent t)]) = started (cur_of a) l.
  Proof.
    intros a l l1 t m (dn & E & [Hr _] & _) Em Hn Ht Hx. rewrite Em. eapply started_end; eauto.
    assert (length (ClientInv.cur_cmd (Some m)) = 1) by now destruct m.
    rewrite E, Em, !app_length. lia.
  Qed.

  Lemma free_snoc : forall mode items c, free mode items -> regular c -> free mode (items ++ [RqCommand c]).
  Proof.
    intros mode items c [[-> H]|(-> & its & -> & H)] Hc.
    - left. split; [reflexivity|]. apply Forall_app. split; [exact H|]. constructor; [exact Hc|constructor].
    - right. split; [reflexivity|]. exists (its ++ [RqCommand c]). split; [reflexivity|].
      apply Forall_app. split; [exact H|]. constructor; [exact Hc|constructor].
  Qed.

  Lemma flow_app : forall pre1 G G1, flow_ok pre1 G -> Forall ClientInv.not_sync G1 -> flow_ok pre1 (G ++ G1).
  Proof.
    intros pre1 [|f G] G1 H H1; cbn.
    - now apply flow_not_sync.
    - destruct H as [H H2]. split; [|exact H2]. apply Forall_app. auto.
  Qed.

  (** The client starts with the next command. *)
  Lemma jinv_start : forall l a x toS rd items pre1 G R cs h c q m pushed R' a',
    jinv l a x toS rd items pre1 G R cs -> side l a x -> orderly K relaxed o gr l ->
    cur_of a = None -> cs_queue (a_send a) = (h, c) :: q ->
    cur_of a' = Some m -> cm_tag m = ctag c ->
    enc_command K c = pushed ++ R' -> Forall ClientInv.not_sync pushed ->
    (forall mode its G0, free mode its -> G0 <> [] ->
       stage K (asked (slogs l)) (open_tag (slogs l)) (Some m) R' mode (its ++ [RqCommand c]) G0 []) ->
    pushed <> [] ->
    jinv (l ++ map YC [ClNext (IOutput (frags_bytes pushed))]) a' x (toS ++ frags_bytes pushed)
      rd (items ++ [RqCommand c]) pre1 (G ++ pushed) R' cs.
  Proof.
    intros l a x toS rd items pre1 G R cs h c q m pushed R' a' J Sd Ho Hc Hq Hc' Ht Ee Hns Hst Hne.
    pose proof J as [J1 J2 J3 J4 J5 J6 J7 J8 J9].
    destruct (sd_conv _ _ _ _ _ _ Sd) as (dn & E & [Hr _] & Hcur). rewrite Hc in *.
    cbn in E, Hcur. rewrite Hq in E.
    assert (Hn : nth_error (enqueued (clogs l)) (length (terminals (clogs l))) = Some (h, c)).
    { rewrite E, <- Hr. rewrite nth_error_app2 by (apply Nat.le_refl). now rewrite Nat.sub_diag. }
    assert (Es : started (Some m) (clogs l ++ [ClNext (IOutput (frags_bytes pushed))]) =
                 started None (clogs l) ++ [RqCommand c]).
    { eapply started_start; eauto; [constructor; [reflexivity|constructor]|].
      now destruct Hcur as (_ & Hcur & _). }
    inversion J4 as [mode items' G0 Hf| | | | | | | | | | | | | | | | | | |]; subst.
    eapply jinv_send; eauto.
    - rewrite Hc', Es, <- J2, <- app_assoc. reflexivity.
    - destruct J3 as [P1 P2 P3 P4 P5]. constructor; auto.
      + rewrite item_frags_app, P1. unfold item_frags. cbn. rewrite !app_nil_r, Ee, <- !app_assoc. reflexivity.
      + rewrite app_assoc, P3. now rewrite ClientInv.frags_bytes_app.
      + destruct P4 as [P4|(c0 & its & d & m0 & post & -> & P4)]; [now left|].
        right. exists c0, (its ++ [RqCommand c]), d, m0, post. split; [reflexivity|exact P4].
      + now apply flow_app.
    - rewrite Hc'. apply Hst; auto. intro E0. apply app_eq_nil in E0 as [_ E0]. congruence.
    - intros m0 Hm0 Hu. rewrite Hc' in Hm0. injection Hm0 as <-. rewrite Ht. intro Hin.
      apply J7 in Hin.
      assert (Hd : NoDup (map ctag (cmds (rd ++ items ++ [RqCommand c])))).
      { rewrite app_assoc, J2, <- Es.
        rewrite started_cmds.
        - rewrite ClientInv.enqueued_app, app_nil_r, map_map.
          set (n := _ + _). pose proof (or_tags _ _ _ _ _ Ho) as Hd.
          rewrite <- (firstn_skipn n (enqueued (clogs l))), map_app in Hd. now apply NoDup_app_l in Hd.
        - rewrite ClientInv.enqueued_app, ClientInv.terminals_app, !app_length.
          assert (length (ClientInv.cur_cmd (Some m)) = 1) as -> by now destruct m.
          rewrite E, app_length, <- Hr. cbn [length terminals events filter enqueued]. lia. }
      rewrite cmds_app, map_app, cmds_app, map_app in Hd.
      apply in_split in Hin as (u1 & u2 & Eu). rewrite Eu, <- app_assoc in Hd. cbn [app] in Hd.
      apply NoDup_remove_2 in Hd. apply Hd. apply in_or_app. right. apply in_or_app. right.
      apply in_or_app. right. now left.
  Qed.

  (** *** Receiving *)

  Lemma take_head : forall l l1 z x m0,
    respinv K o gr (l ++ map YC l1) z -> ServerInv.sinv K o gr (slogs l) x -> taken l1 = [m0] ->
    exists m F, inflight l = m :: F /\ inflight (l ++ map YC l1) = F /\
      msg_verdict m = crx_verdict m0 /\
      firstn (length (taken (clogs l ++ l1))) (sched (slogs l)) =
      firstn (length (taken (clogs l))) (sched (slogs l)) ++ [m].
  Proof.
    intros l l1 z x m0 (F0 & F1 & E1 & E2 & _) I1 Ht.
    destruct (sent_spec K o gr _ _ I1) as [_ A]. rewrite slogs_client in E1. rewrite <- E1 in A.
    rewrite clogs_client, received_app in E2.
    assert (Er : received l1 = [crx_verdict m0]) by (unfold received; now rewrite Ht).
    rewrite Er in E2.
    destruct (exists_last (l := F0)) as (F0' & m & ->).
    { intros ->. cbn in E2. destruct (received (clogs l)); discriminate. }
    rewrite map_app in E2. cbn in E2. apply app_inj_tail in E2 as [E2 E3].
    assert (Hl : length (taken (clogs l)) = length F0').
    { assert (E : length (received (clogs l)) = length F0') by now rewrite E2, map_length.
      unfold received in E. now rewrite map_length in E. }
    exists m, (F1 ++ ss_queue (x_send x)).
    unfold SystemServer.inflight. rewrite clogs_client, slogs_client, ClientInv.taken_app, Ht, app_length, Hl, A.
    rewrite <- !app_assoc. cbn [length]. split.
    { rewrite skipn_app, skipn_all, Nat.sub_diag. reflexivity. }
    split.
    { rewrite skipn_app. rewrite skipn_all2 by lia.
      replace (length F0' + 1 - length F0') with 1 by lia. reflexivity. }
    split; [auto|].
    rewrite !firstn_app, firstn_all, Nat.sub_diag. rewrite firstn_all2 by lia.
    replace (length F0' + 1 - length F0') with 1 by lia. cbn. now rewrite app_nil_r.
  Qed.

  (** A step in which [m] is received. *)
  Lemma jinv_recv : forall l a x toS rd items pre1 G R cs l1 a' m F cs',
    jinv l a x toS rd items pre1 G R cs ->
    inflight (l ++ map YC l1) = F ->
    firstn (length (taken (clogs l ++ l1))) (sched (slogs l)) =
      firstn (length (taken (clogs l))) (sched (slogs l)) ++ [m] ->
    reported_all (events l1) = visible_of m ->
    started (cur_of a') (clogs l ++ l1) = started (cur_of a) (clogs l) ->
    controls (completed (slogs l)) F cs' ->
    stage K (asked (slogs l)) (open_tag (slogs l)) (cur_of a') R (x_mode x) items G cs' ->
    (forall m, cur_of a' = Some m -> unfinished m -> ~ In (cm_tag m) (completed (slogs l))) ->
    jinv (l ++ map YC l1) a' x toS rd items pre1 G R cs'.
  Proof.
    intros l a x toS rd items pre1 G R cs l1 a' m F cs' J H1 H2 H3 H4 H5 H6 H7.
    pose proof J as [J1 J2 J3 J4 J5 J6 J7 J8 J9].
    eapply jinv_client; eauto.
    - now rewrite H4.
    - now rewrite H1.
    - rewrite events_app, reported_app, J9, H3, H2. unfold visible.
      rewrite flat_map_app. cbn. now rewrite app_nil_r.
  Qed.

  Lemma settled_unfinished : forall a m, a_greeted a = true -> asettled K a -> cur_of a = Some m ->
    unfinished m.
  Proof.
    intros a m Hg Hs Hm. pose proof (ClientInv.settled_waiting K _ (Hs Hg)) as W.
    unfold ClientInv.waiting in W. rewrite Hm in W.
    destruct m as [h c fs [acc|[lit|]|lit]|h ca []|h t []]; cbn; auto.
  Qed.

  (** All steps of the client. *)
  Lemma jinv_astep : forall l a x toS rd items pre1 G R cs l1 a' z',
    jinv l a x toS rd items pre1 G R cs -> side l a x -> orderly K relaxed o gr (l ++ map YC l1) ->
    ServerInv.sinv K o gr (slogs l) x -> respinv K o gr (l ++ map YC l1) z' ->
    astep K relaxed a l1 a' -> inputs l1 = [] ->
    exists items' G' R' cs', jinv (l ++ map YC l1) a' x (toS ++ outputs l1) rd items' pre1 G' R' cs'.
  Proof.
    intros l a x toS rd items pre1 G R cs l1 a' z' J Sd Ho Si Hresp Ha Hi.
    pose proof (orderly_app _ _ _ _ _ _ Ho) as Ho0.
    pose proof J as [J1 J2 J3 J4 J5 J6 J7 J8 J9].
    pose proof (items_ok K relaxed o gr _ _ _ _ _ _ _ _ _ _ J Ho0) as Hok.
    (* results of [send_state.next] *)
    assert (Next : forall s r, cs_next K (a_send a) = (s, r) ->
      forall l0 a0, a_send a0 = s ->
      match r with
      | CsOk None => l0 = []
      | CsOk (Some e) => l0 = [ClNext (IEvent (cs_event_ev e))]
      | CsOutput b => l0 = [ClNext (IOutput b)]
      | CsPanic => False
      end ->
      exists items' G' R' cs', jinv (l ++ map YC l0) a0 x (toS ++ outputs l0) rd items' pre1 G' R' cs').
    { intros s r Hn l0 a0 Ea Hl0.
      destruct (cur_of a) as [m|] eqn:Em.
      - (* a current message *)
        unfold cs_next in Hn. rewrite Em in Hn.
        destruct (stage_progress _ _ _ _ _ _ pre1 _ _ _ _ _ J4 Hn) as [_ Hp].
        { intros lit fs -> ->. eapply literal_line; eauto. }
        { intros ln ->. eapply item_lines; [exact Hok|]. rewrite (po_eq _ _ _ _ _ _ _ _ J3).
          apply in_or_app. right. apply in_or_app. right. now left. }
        { intros c ->. apply (po_eq _ _ _ _ _ _ _ _ J3). }
        destruct r as [e|b|]; [| |contradiction].
        + destruct Hp as [[He (m' & Hm' & Hst & Ht & Hu)]|(e' & -> & Hte & Hcur & Hst)].
          * exists items, G, R, cs.
            assert (Eo : outputs l0 = [] /\ taken l0 = [] /\ reported_all (events l0) = [] /\
              ClientInv.no_end l0 /\ answers (exchange l0) = []).
            { destruct He as [->|(e' & -> & He)].
              - subst l0. repeat split; constructor.
              - subst l0. repeat split; try (destruct e'; (reflexivity || discriminate)).
                constructor; [exact He|constructor]. }
            destruct Eo as (Eo & E1 & E2 & E3 & E4). rewrite Eo, app_nil_r.
            eapply jinv_keep; eauto. right. exists m, m'. rewrite Ea. auto.
          * exists items, G, R, cs. subst l0. cbn [outputs]. rewrite app_nil_r.
            eapply jinv_send; eauto.
            -- destruct e'; reflexivity.
            -- rewrite Ea, Hcur.
               change [ClNext (IEvent (cs_event_ev e'))] with ([] ++ [ClNext (IEvent (cs_event_ev e'))]).
               rewrite (started_resolved a _ _ _ m (sd_conv _ _ _ _ _ _ Sd) Em); auto.
               ++ now rewrite Em.
               ++ constructor.
               ++ destruct e'; try discriminate; reflexivity.
            -- rewrite Ea, Hcur. exact Hst.
            -- intros m0 Hm0. rewrite Ea, Hcur in Hm0. discriminate.
        + destruct Hp as (m' & pushed & R' & Hm' & ER & Eb & EG & Hst & Hfl & Ht & Hu).
          subst l0 R b G.
          exists items, pushed, R', cs. cbn [outputs]. rewrite app_nil_r.
          eapply jinv_send; eauto.
          * rewrite Ea, Hm', (started_same a _ _ _ (sd_conv _ _ _ _ _ _ Sd)).
            -- cbn. now rewrite app_nil_r, Em.
            -- constructor; [reflexivity|constructor].
            -- now rewrite Em.
          * destruct J3 as [P1 P2 P3 P4 P5]. constructor; auto.
            rewrite app_assoc, P3. reflexivity.
          * rewrite Ea, Hm'. exact Hst.
          * intros m0 Hm0 Hun. rewrite Ea, Hm' in Hm0. injection Hm0 as <-. rewrite Ht. auto.
      - (* the next command is started *)
        unfold cs_next in Hn. rewrite Em in Hn.
        destruct (cs_queue (a_send a)) as [|[h c] q] eqn:Eq.
        { injection Hn as <- <-. subst l0. exists items, G, R, cs. cbn [outputs]. rewrite (app_nil_r toS).
          eapply jinv_keep; eauto; [constructor|]. left. now rewrite Ea. }
        assert (Hrq : rq_ok K o (RqCommand c)).
        { cbn. apply (or_cmds _ _ _ _ _ Ho0 h). destruct (sd_conv _ _ _ _ _ _ Sd) as (dn & E & _).
          rewrite E, Em, Eq. apply in_or_app. right. now left. }
        destruct (rq_frags_line K o _ Hrq) as (ln & fs & Efs & Hln). cbn in Efs.
        unfold queued_start in Hn. destruct (cbody c) as [mech ir| |p] eqn:Eb.
        + (* AUTHENTICATE *)
          destruct (single_line (enc_command K c)) as [line|] eqn:El; cbn in Hn;
            [|injection Hn as <- <-; contradiction].
          rewrite Efs in El. destruct fs as [|? ?]; [|discriminate]. cbn in El. injection El as <-.
          unfold cs_progress in Hn. cbn [cm_push_to_buffer] in Hn.
          destruct ln as [|b0 bs]; [apply is_line_nonempty in Hln; cbn in Hln; lia|].
          injection Hn as <- <-. subst l0. cbn [outputs]. rewrite app_nil_r.
          assert (Ef : b0 :: bs = frags_bytes [FLine (b0 :: bs)]).
          { unfold frags_bytes. cbn. now rewrite app_nil_r. }
          rewrite Ef.
          eexists _, _, _, _. eapply jinv_start; eauto.
          * rewrite Ea. reflexivity.
          * reflexivity.
          * rewrite Efs. now rewrite app_nil_r.
          * constructor; [intros d; discriminate|constructor].
          * intros mode its G0 Hf HG0. apply sg_auth_unread; [now left|].
            exists its. split; [|exact Hf]. do 3 f_equal. unfold command_of_authenticate. cbn.
            destruct c as [t b]. cbn in *. now rewrite Eb.
          * discriminate.
        + (* IDLE *)
          destruct (single_line (enc_command K c)) as [line|] eqn:El; cbn in Hn;
            [|injection Hn as <- <-; contradiction].
          rewrite Efs in El. destruct fs as [|? ?]; [|discriminate]. cbn in El. injection El as <-.
          unfold cs_progress in Hn. cbn [cm_push_to_buffer] in Hn.
          destruct ln as [|b0 bs]; [apply is_line_nonempty in Hln; cbn in Hln; lia|].
          injection Hn as <- <-. subst l0. cbn [outputs]. rewrite app_nil_r.
          assert (Ef : b0 :: bs = frags_bytes [FLine (b0 :: bs)]).
          { unfold frags_bytes. cbn. now rewrite app_nil_r. }
          rewrite Ef.
          eexists _, _, _, _. eapply jinv_start; eauto.
          * rewrite Ea. reflexivity.
          * reflexivity.
          * rewrite Efs. now rewrite app_nil_r.
          * constructor; [intros d; discriminate|constructor].
          * intros mode its G0 Hf HG0. apply sg_idle_unread; [now left|].
            exists its. split; [|exact Hf]. do 3 f_equal. unfold idle_cmd.
            destruct c as [t b]. cbn in *. now rewrite Eb.
          * discriminate.
        + (* other commands *)
          unfold cs_progress in Hn. cbn [cm_push_to_buffer] in Hn.
          destruct (push_fragments (enc_command K c)) as [[out lm] rest] eqn:Ep.
          destruct (ClientInv.push_fragments_spec _ _ _ _ Ep) as (pushed & Ec & Eout & Hns & Hrest).
          assert (Hpne : pushed <> []).
          { intros ->. rewrite Efs in Ec. cbn in Ec. destruct lm; [discriminate|].
            rewrite (Hrest eq_refl) in Ec. discriminate. }
          cbn [opt_bytes app] in Hn.
          destruct out as [|b0 bs].
          { exfalso. destruct pushed as [|f pushed]; [congruence|].
            rewrite Efs in Ec. injection Ec as <- _. unfold frags_bytes in Eout. cbn in Eout.
            symmetry in Eout. now apply line_bytes_ne in Eout. }
          injection Hn as <- <-. subst l0. cbn [outputs]. rewrite app_nil_r, Eout.
          assert (Hreg : regular c) by (exists p; exact Eb).
          eexists _, _, _, _. eapply jinv_start; eauto.
          * rewrite Ea. reflexivity.
          * reflexivity.
          * intros mode its G0 Hf HG0. destruct lm as [lit|].
            -- cbn. eapply sg_wait; eauto; [now left|]. exists its. auto.
            -- cbn. rewrite (Hrest eq_refl). apply sg_sent; auto. now apply free_snoc. }
    destruct Ha as [a cmd g0 h Hg|a y|a d s r H0|a s r H0|a s H0 H1|a s e H0 H1|a s b H0 H1
      |a H0 H1|a raw rest ls g0 H0 H1 H2|a raw rest ls q s H0 H1 H2 H3 H4
      |a raw rest ls m c' e H0 H1 H2 H3 H4|a raw rest v e H0 H1 H2].
    - (* enqueue *)
      exists items, G, R, cs. cbn [outputs]. rewrite app_nil_r.
      eapply jinv_keep; eauto. constructor; [reflexivity|constructor].
    - (* input *)
      exists items, G, R, cs. cbn [outputs]. rewrite app_nil_r.
      eapply jinv_keep; eauto. constructor; [reflexivity|constructor].
    - (* set_authenticate_data *)
      cbn [outputs]. rewrite app_nil_r. unfold cs_set_authenticate_data in H0.
      assert (Nop : Val (a_send a, inr d) = Val (s, r) ->
        exists items' G' R' cs', jinv (l ++ map YC [ClSetAuth d r]) (a_set_send a s) x toS rd items' pre1 G' R' cs').
      { intro E. injection E as <- <-. exists items, G, R, cs. eapply jinv_keep; eauto.
        constructor; [reflexivity|constructor]. }
      destruct (cur_of a) as [[h c fs act|h ca act|h t act]|] eqn:Em; try (now apply Nop).
      destruct act; try (now apply Nop). clear Nop.
      destruct (single_line (enc_authdata K d)) as [line|] eqn:El; cbn in H0; [|discriminate].
      injection H0 as <- <-.
      assert (Ee : enc_authdata K d = [FLine line]).
      { destruct (enc_authdata K d) as [|[y|y m] [|? ?]]; try discriminate. cbn in El. now injection El as <-. }
      inversion J4 as [| | | | | | | | | |h0 ca0 Haw Hoo| | | | | | | | |]; subst.
      all: try (match goal with H : auth_sent _ |- _ => destruct H; discriminate end).
      all: try (match goal with H : auth_waits _ |- _ => destruct H as [[|]|]; discriminate end).
      exists [RqData d], [], [FLine line], [].
      eapply jinv_send; eauto.
      + cbn. rewrite (started_same a _ _ (Some _) (sd_conv _ _ _ _ _ _ Sd)).
        * cbn. rewrite Em, <- J2, app_nil_r. reflexivity.
        * constructor; [reflexivity|constructor].
        * now rewrite Em.
      + destruct J3 as [P1 P2 P3 P4 P5]. cbn in P1. symmetry in P1.
        apply app_eq_nil in P1 as [-> _].
        constructor; auto.
        * unfold item_frags. cbn. now rewrite Ee.
        * destruct P4 as [P4|(c0 & its & d0 & m0 & post & E & _)]; [now left|discriminate].
      + cbn. match goal with H : ExAuthenticateData = x_mode x |- _ => rewrite <- H end.
        now apply (sg_auth_data K _ _ h ca d).
      + cbn. intros m0 Hm0 Hu. injection Hm0 as <-. cbn.
        apply (J6 (CmAuthenticate h ca AaWaitingForAuthenticateDataSet)); [reflexivity|exact I].
    - (* set_idle_done *)
      cbn [outputs]. rewrite app_nil_r. unfold cs_set_idle_done in H0.
      assert (Nop : Val (a_send a, None) = Val (s, r) ->
        exists items' G' R' cs', jinv (l ++ map YC [ClSetDone r]) (a_set_send a s) x toS rd items' pre1 G' R' cs').
      { intro E. injection E as <- <-. exists items, G, R, cs. eapply jinv_keep; eauto.
        constructor; [reflexivity|constructor]. }
      destruct (cur_of a) as [[h c fs act|h ca act|h t act]|] eqn:Em; try (now apply Nop).
      destruct act; try (now apply Nop). clear Nop.
      destruct (single_line (enc_idledone K)) as [line|] eqn:El; cbn in H0; [|discriminate].
      injection H0 as <- <-.
      assert (Ee : enc_idledone K = [FLine line]).
      { destruct (enc_idledone K) as [|[y|y m] [|? ?]]; try discriminate. cbn in El. now injection El as <-. }
      inversion J4; subst.
      all: try (match goal with H : idle_waits _ |- _ => destruct H; discriminate end).
      exists [RqDone], [], [FLine line], [].
      eapply jinv_send; eauto.
      + cbn. rewrite (started_same a _ _ (Some _) (sd_conv _ _ _ _ _ _ Sd)).
        * cbn. rewrite Em, <- J2, app_nil_r. reflexivity.
        * constructor; [reflexivity|constructor].
        * now rewrite Em.
      + destruct J3 as [P1 P2 P3 P4 P5]. cbn in P1. symmetry in P1.
        apply app_eq_nil in P1 as [-> _].
        constructor; auto.
        * unfold item_frags. cbn. now rewrite Ee.
        * destruct P4 as [P4|(c0 & its & d0 & m0 & post & E & _)]; [now left|discriminate].
      + cbn. match goal with H : ExIdleDone = x_mode x |- _ => rewrite <- H end. now apply sg_idle_push.
      + cbn. intros m0 Hm0 Hu. injection Hm0 as <-. cbn.
        apply (J6 (CmIdle h t IaWaitingForIdleDoneSet)); [reflexivity|exact I].
    - eapply (Next _ _ H1); reflexivity.
    - eapply (Next _ _ H1); reflexivity.
    - eapply (Next _ _ H1); reflexivity.
    - (* need more *)
      exists items, G, R, cs. cbn [outputs]. rewrite app_nil_r.
      eapply jinv_keep; eauto. constructor; [reflexivity|constructor].
    - (* greeting *)
      cbn [outputs]. rewrite app_nil_r. exists items, G, R, cs.
      destruct (take_head _ _ _ _ (Crx raw (CvGreeting g0)) Hresp Si eq_refl) as (m & F & F1 & F2 & F3 & F4).
      cbn in F3. destruct m as [g|hh r]; [|discriminate]. injection F3 as ->.
      rewrite F1 in J5.
      assert (Hc : controls (completed (slogs l)) F cs).
      { inversion J5 as [|? ? ? _ Hc|? ? cs0 Hc]; subst; [exact Hc|]. inversion J4. }
      eapply jinv_recv; eauto.
      + cbn. rewrite (started_same a _ _ _ (sd_conv _ _ _ _ _ _ Sd)).
        * destruct (cur_of a); cbn; apply app_nil_r.
        * constructor; [reflexivity|constructor; [reflexivity|constructor]].
        * destruct (cur_of a); exact I.
    - (* literal accepted *)
      cbn [outputs]. rewrite app_nil_r.
      destruct (take_head _ _ _ _ (Crx raw (CvResponse (RCcr q))) Hresp Si eq_refl) as (m & F & F1 & F2 & F3 & F4).
      cbn in F3. destruct m as [g|hh r]; [discriminate|]. injection F3 as ->.
      rewrite F1 in J5. inversion J5 as [|? ? ? Hpl Hc|? ? cs0 Hc]; subst; [contradiction|].
      unfold cs_literal_continue in H4.
      destruct (cur_of a) as [[h c fs act|h ca act|h t act]|] eqn:Em; try discriminate.
      destruct act as [acc|lm|lit]; try discriminate. injection H4 as <-.
      inversion J4 as [| | |h0 c0 fs0 act0 lit0 qq Hc0 Hl0| | | | | | | | | | | | | | | |]; subst.
      exists [RqCommand c], [], (FLiteral lit0 LSync :: fs), [].
      destruct Hl0 as [E|E]; [discriminate|]. injection E as <-.
      eapply jinv_recv; eauto.
      + cbn. rewrite (started_same a _ _ (Some _) (sd_conv _ _ _ _ _ _ Sd)).
        * cbn. rewrite Em. apply app_nil_r.
        * constructor; [reflexivity|constructor].
        * now rewrite Em.
      + cbn. match goal with H : ExCommand = x_mode x |- _ => rewrite <- H end. now apply sg_push.
      + cbn. intros m0 Hm0 Hu. injection Hm0 as <-. cbn.
        apply (J6 (CmCommand h c fs (CaWaitingForLiteralAccepted lit))); [reflexivity|exact I].
    - (* response *)
      cbn [outputs]. rewrite app_nil_r.
      destruct (take_head _ _ _ _ (Crx raw (CvResponse m)) Hresp Si eq_refl) as (m1 & F & F1 & F2 & F3 & F4).
      cbn in F3. destruct m1 as [g|hh r]; [discriminate|]. injection F3 as ->.
      pose proof (ClientInv.settled_waiting K _ (H1 H0)) as Hw. unfold ClientInv.waiting in Hw.
      rewrite F1 in J5. inversion J5 as [|? ? ? Hpl Hc|? ? cs0 Hc]; subst.
      + (* does not concern the current command *)
        assert (Same : c_send c' = a_send a /\ reported e = Some m /\ is_terminal e = false /\
          exchange [ClNext (IEvent e)] = []).
        { destruct m as [st|dd|q]; [| |contradiction].
          - cbn in H4. destruct (cs_maybe_terminate (a_send a) st) as [s t] eqn:Et.
            assert (Ete : s = a_send a /\ t = None).
            { unfold cs_maybe_terminate in Et.
              destruct (cur_of a) as [m0|] eqn:Em; [|injection Et as <- <-; auto].
              assert (Hu : unfinished m0) by (eapply settled_unfinished; eauto).
              pose proof (J6 _ eq_refl Hu) as Hnin.
              destruct st as [t0 b|b|cc tt]; [|destruct m0; injection Et as <- <-; auto..].
              cbn in Hpl.
              assert (Hneq : t0 <> cm_tag m0) by (intros ->; contradiction).
              apply bytes_eqb_neq in Hneq.
              destruct m0 as [h c fs act|h ca act|h t1 act]; cbn in Hneq; rewrite Hneq in Et;
                rewrite ?andb_false_r in Et; injection Et as <- <-; auto. }
            destruct Ete as [-> ->]. injection H4 as <- <-. auto.
          - cbn in H4. injection H4 as <- <-. auto. }
        destruct Same as (S1 & S2 & S3 & S4).
        exists items, G, R, cs. eapply jinv_recv; eauto.
        * cbn. rewrite S2. destruct hh; destruct m; try reflexivity; contradiction.
        * cbn. rewrite S1. rewrite (started_same a _ _ _ (sd_conv _ _ _ _ _ _ Sd)).
          -- assert (Ex : exchange [ClRx (Crx raw (CvResponse m)); ClNext (IEvent e)] = []) by exact S4.
             rewrite Ex. destruct (cur_of a); apply app_nil_r.
          -- constructor; [reflexivity|constructor; [exact S3|constructor]].
          -- destruct (cur_of a); exact I.
        * cbn. now rewrite S1.
        * cbn. now rewrite S1.
      + (* concerns the current command *)
        assert (Keep : forall q m0 m', cur_of a = Some m0 -> cur_of (AState (a_gen a) (c_send c') true rest) = Some m' ->
          hh <> None -> m = RCcr q ->
          reported e = Some (RCcr q) -> is_terminal e = false -> answers (exchange [ClNext (IEvent e)]) = [] ->
          cm_tag m' = cm_tag m0 -> (unfinished m' -> unfinished m0) ->
          stage K (asked (slogs l)) (open_tag (slogs l)) (Some m') R (x_mode x) items G cs0 ->
          exists items' G' R' cs', jinv (l ++ map YC [ClRx (Crx raw (CvResponse m)); ClNext (IEvent e)])
            (AState (a_gen a) (c_send c') true rest) x toS rd items' pre1 G' R' cs').
        { intros q m0 m' Em Em' Hhh -> Hr Hte Hx Ht Hu Hst. exists items, G, R, cs0.
          eapply jinv_recv; eauto.
          - cbn. rewrite Hr. destruct hh; [reflexivity|congruence].
          - rewrite Em', (started_same a _ _ (Some m') (sd_conv _ _ _ _ _ _ Sd)).
            + cbn in Hx. cbn [exchange]. rewrite Hx. now rewrite Em, app_nil_r.
            + constructor; [reflexivity|constructor; [exact Hte|constructor]].
            + now rewrite Em.
          - now rewrite Em'.
          - intros m2 Hm2 Hun. rewrite Em' in Hm2. injection Hm2 as <-. rewrite Ht. apply J6; auto. }
        assert (End : forall st m0, cur_of a = Some m0 -> cs_current (c_send c') = None ->
          m = RStatus st -> reported e = Some (RStatus st) -> is_terminal e = true ->
          stage K (asked (slogs l)) (open_tag (slogs l)) None R (x_mode x) items G cs0 ->
          exists items' G' R' cs', jinv (l ++ map YC [ClRx (Crx raw (CvResponse m)); ClNext (IEvent e)])
            (AState (a_gen a) (c_send c') true rest) x toS rd items' pre1 G' R' cs').
        { intros st m0 Em Em' -> Hr Hte Hst. exists items, G, R, cs0.
          eapply jinv_recv; eauto.
          - cbn. rewrite Hr. destruct hh; reflexivity.
          - cbn [a_send]. rewrite Em'.
            change [ClRx (Crx raw (CvResponse (RStatus st))); ClNext (IEvent e)] with
              ([ClRx (Crx raw (CvResponse (RStatus st)))] ++ [ClNext (IEvent e)]).
            rewrite (started_resolved a _ _ _ m0 (sd_conv _ _ _ _ _ _ Sd) Em); auto.
            + constructor; [reflexivity|constructor].
            + destruct e; try discriminate; reflexivity.
          - cbn [a_send]. now rewrite Em'.
          - intros m2 Hm2. cbn [a_send] in Hm2. rewrite Em' in Hm2. discriminate. }
        destruct (cur_of a) as [m0|] eqn:Em; [|inversion J4].
        inversion J4 as
          [
          |
          |
          |h c fs act lit qq Hc0 Hl
          |h c fs act lit b Hc0 Hl Hb
          |
          |
          |
          |h ca act hh0 qq Ha Haw Hoo
          |
          |
          |
          |h ca act hh0 b Ha
          |
          |
          |h t act hh0 qq Ha Hoo
          |
          |
          |
          |h t act hh0 b Ha]; subst.
        * (* accepted literal: not reported *)
          exfalso. destruct Hl as [-> | ->]; [contradiction|].
          cbn in H4. unfold cs_literal_continue in H4. rewrite Em in H4. discriminate.
        * cbn in H4. unfold cs_maybe_terminate in H4. rewrite Em, Hb, bytes_eqb_refl in H4. cbn in H4.
          injection H4 as <- <-. eapply End; eauto. cbn.
          match goal with H : ExCommand = x_mode x |- _ => rewrite <- H end.
          apply sg_none. left. auto.
        * cbn in H4. unfold cs_literal_continue in H4. rewrite Em in H4. cbn in H4.
          unfold cs_authenticate_continue in H4. rewrite Em in H4.
          destruct act; try contradiction; try (destruct Ha as [[|]|]; discriminate).
          injection H4 as <- <-.
          apply (Keep qq _ (CmAuthenticate h ca AaWaitingForAuthenticateDataSet) eq_refl); auto; try discriminate.
          match goal with H : ExAuthenticateData = x_mode x |- _ => rewrite <- H end.
          now apply sg_auth_set.
        * cbn in H4. unfold cs_maybe_terminate in H4. rewrite Em, bytes_eqb_refl in H4.
          destruct (sb_kind b); injection H4 as <- <-; (eapply End; eauto;
            match goal with H : ExCommand = x_mode x |- _ => rewrite <- H end;
            apply sg_none; left; auto).
        * cbn in H4. unfold cs_literal_continue in H4. rewrite Em in H4. cbn in H4.
          unfold cs_authenticate_continue in H4. rewrite Em in H4.
          unfold cs_idle_continue in H4. rewrite Em in H4.
          destruct act; try contradiction; try (destruct Ha as [|]; discriminate).
          injection H4 as <- <-.
          apply (Keep qq _ (CmIdle h t IaWaitingForIdleDoneSet) eq_refl); auto; try discriminate.
          match goal with H : ExIdleDone = x_mode x |- _ => rewrite <- H end.
          now apply sg_idle_set.
        * cbn in H4. unfold cs_maybe_terminate in H4. rewrite Em, bytes_eqb_refl in H4.
          injection H4 as <- <-. eapply End; eauto.
          match goal with H : ExCommand = x_mode x |- _ => rewrite <- H end.
          apply sg_none. left. auto.
    - (* not a message: impossible *)
      exfalso.
      destruct (take_head _ _ _ _ (Crx raw v) Hresp Si eq_refl) as (m1 & F & F1 & F2 & F3 & F4).
      destruct H2 as [(-> & _)|(-> & _)]; destruct m1; discriminate.
  Qed.
End Client.
