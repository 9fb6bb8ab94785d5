(** The properties of the client, for runs of the modelled API. *)
From Coq Require Import List NArith Bool PeanoNat Lia ZifyBool ZifyNat ZifyN.
From Verif Require Import Base Types Codec Handle Receive ClientSend Client SpecFraming
  SpecClient SpecDrive ReceiveProofs ClientRecv ClientAbs ClientInv ClientProps ClientDet
  ClientLive.
Import ListNotations.

Section Thms.
  Variable K : Codecs.
  Variable relaxed : bool.
  Variable g : hgen.
  Variable ops : list cop.
  Variable c : client.
  Variable l : list clog.
  Hypothesis Hrun : ran K relaxed g ops c l.

  Lemma run_abs : exists a, asteps K relaxed (astate_new g) l a /\ crel K relaxed c a.
  Proof. exact (client_run_new K relaxed g ops c l Hrun). Qed.

  Lemma run_conv : exists a, crel K relaxed c a /\ conv_inv K a l.
  Proof.
    destruct run_abs as (a & S & R). exists a. split; [assumption|].
    eapply asteps_conv; eauto.
  Qed.

  Lemma chunking : forall app xs ys h, concat xs = concat ys ->
    (drive K app c xs [] h <-> drive K app c ys [] h).
  Proof.
    intros app xs ys h E. destruct run_abs as (a & _ & R).
    split; apply (drive_chunks K relaxed app c a); auto.
  Qed.

  Lemma partition : inputs l = concat (map crx_raw (taken l)) ++ client_buf c.
  Proof.
    destruct run_abs as (a & S & R). rewrite (client_buf_rel _ _ _ _ R).
    pose proof (asteps_partition K relaxed _ _ _ S) as P. exact P.
  Qed.

  Lemma frames : forall l1 m l2, l = l1 ++ ClRx m :: l2 ->
    frame_verdict K relaxed (greetedb l1) m /\ follows m l2.
  Proof.
    intros l1 m l2 E. destruct run_abs as (a & S & R). split.
    - eapply asteps_frame; eauto.
    - eapply asteps_follows; eauto.
  Qed.

  Lemma origins : forall l1 r l2, l = l1 ++ ClNext r :: l2 -> report_origin l1 r.
  Proof.
    intros l1 r l2 E. destruct run_abs as (a & S & R).
    destruct r as [e| | | |e| |]; try exact I.
    - destruct e; try exact I; try (eapply asteps_event_before; eauto; reflexivity).
      eapply asteps_greeting_before; eauto.
    - destruct (asteps_error_before K relaxed _ _ _ _ _ _ S E) as (l0 & raw & v & -> & [(-> & ->)|(-> & ->)]);
        cbn; eauto.
  Qed.

  (** *** Line ends *)

  Lemma framed_end : forall {M L} (dec : bytes -> dec_result M L) acc w ls o p,
    scan dec relaxed acc p w ls o ->
    exists q x, w = q ++ x /\ is_line x /\ verdict dec relaxed acc (p ++ w) x o /\ (ls = [] -> q = []).
  Proof.
    intros M L dec acc w ls o p H.
    induction H as [p x o Hx V|p x i n d w ls o Hx Hok Hd Ha Hn _ IH].
    - exists [], x. auto.
    - destruct IH as (q & y & -> & Hy & V & _).
      exists (x ++ d ++ q), y. rewrite <- !app_assoc. repeat split; auto.
      + rewrite <- !app_assoc in V. exact V.
      + discriminate.
  Qed.

  Lemma ends_crlf_app : forall p x, ends_crlf x -> ends_crlf (p ++ x).
  Proof. intros p x (y & ->). exists (p ++ y). now rewrite app_assoc. Qed.

  Lemma line_ends : forall m, In m (taken l) -> line_end_ok relaxed m.
  Proof.
    intros m Hin.
    assert (Hl : In (ClRx m) l).
    { clear Hrun. induction l as [|[] l0 IH]; cbn in Hin; auto; try (right; auto; fail).
      destruct Hin as [->|Hin]; [now left|right; auto]. }
    apply in_split in Hl as (l1 & l2 & E).
    destruct (frames l1 m l2 E) as [F _]. destruct m as [raw v]. unfold line_end_ok, frame_verdict in *.
    cbn in *.
    assert (G : forall M L (dec : bytes -> dec_result M L) acc ls o,
      framed dec relaxed acc raw ls o -> o <> OBareLf -> relaxed = false -> ends_crlf raw).
    { intros M L dec acc ls o H Ho Hr. apply framed_end in H as (q & x & -> & Hx & V & _).
      assert (Hok : line_ok relaxed x) by (destruct V; congruence).
      destruct Hok as [?|?]; [congruence|now apply ends_crlf_app]. }
    assert (G2 : forall M L (dec : bytes -> dec_result M L) acc ls,
      framed dec relaxed acc raw ls OBareLf ->
      relaxed = false /\ exists q x, raw = q ++ x /\ is_line x /\ ~ ends_crlf x).
    { intros M L dec acc ls H. apply framed_end in H as (q & x & -> & Hx & V & _).
      inversion V as [Hr Hn| | | | |]. split; [exact Hr|]. exists q, x. auto. }
    destruct v; destruct (greetedb l1); try contradiction; destruct F as (ls & F);
      try (intro; eapply G; eauto; discriminate); eapply G2; eauto.
  Qed.

  Lemma relaxed_no_error : relaxed = true -> forall d, ~ In (ClNext (IError (CerrExpectedCrlfGotLf d))) l.
  Proof.
    intros Hr d Hin. apply in_split in Hin as (l1 & l2 & E).
    pose proof (origins l1 _ l2 E) as (l0 & ->).
    rewrite <- app_assoc in E. cbn in E.
    destruct (frames l0 _ _ E) as [F _]. unfold frame_verdict in F. cbn in F.
    destruct (greetedb l0); destruct F as (ls & F); apply framed_end in F as (q & x & _ & _ & V & _);
      inversion V; congruence.
  Qed.

  (** *** Waiting and termination *)

  Lemma need_more : forall l1 l2, l = l1 ++ ClNext INeedMore :: l2 ->
    (greeted l1 ->
     match current l1 with
     | None => length (terminals l1) = length (enqueued l1)
     | Some (h, cm) => stuck K h cm (outputs (cur_seg l1)) (exchange (cur_seg l1)) (silent (cur_seg l1))
     end) /\
    exists unread, inputs l1 = concat (map crx_raw (taken l1)) ++ unread /\
      (greeted l1 -> ~ has_message (dec_response K) relaxed accept_any unread) /\
      (~ greeted l1 -> ~ has_message (dec_greeting K) relaxed accept_none unread).
  Proof.
    intros l1 l2 E. destruct run_abs as (a & S & _). eapply asteps_needmore; eauto.
  Qed.

  Lemma returns : forall c' rx r, client_next K c = (c', rx, r) -> r <> IFuel /\ r <> INone.
  Proof.
    intros c' rx r E. destruct run_abs as (a & _ & R).
    destruct (client_next_sim K relaxed c a c' rx r R E) as (a' & _ & H1 & H2 & _). auto.
  Qed.

  Lemma bounded_nexts : forall n c' l',
    client_run K c (repeat CopNext n) = (Some c', l') ->
    3 * (length (client_buf c) + (length (enqueued l) - length (terminals l))) < n ->
    In (ClNext INeedMore) l'.
  Proof.
    intros n c' l' E Hn. destruct run_conv as (a & R & C).
    destruct (nexts_work K relaxed n c a c' l' R E) as [H|H]; [assumption|].
    apply conv_work in C. unfold work in H. rewrite (client_buf_rel _ _ _ _ R) in Hn. lia.
  Qed.

  (** *** Conversations *)

  Lemma in_order :
    outputs l = concat (map (fun k => outputs (segment k l)) (seq 0 (S (length (terminals l))))) /\
    length (terminals l) <= length (enqueued l) /\
    (forall k h cm, nth_error (enqueued l) k = Some (h, cm) ->
       (k < length (terminals l) -> exists t, nth_error (terminals l) k = Some t /\
          conversation K h cm (outputs (segment k l)) (exchange (segment k l)) (silent (segment k l)) t) /\
       (k = length (terminals l) ->
          conversing K h cm (outputs (segment k l)) (exchange (segment k l)) (silent (segment k l))) /\
       (length (terminals l) < k -> segment k l = [])) /\
    (length (terminals l) = length (enqueued l) ->
       outputs (cur_seg l) = [] /\ exchange (cur_seg l) = []).
  Proof.
    destruct run_conv as (a & R & C). split; [apply outputs_segments|].
    split; [eapply conv_terminals_le; eauto|]. split.
    - intros k h cm Hk. split; [|split].
      + intro Hlt. destruct (conv_done K a l k h cm C Hk Hlt) as (t & Ht & Hc & _). eauto.
      + intros ->. apply (conv_current_conversing K a l h cm C). exact Hk.
      + intro Hlt. now apply segment_ge.
    - intro E. destruct (conv_no_current K a l C) as (H1 & H2 & _); auto.
      unfold current. apply nth_error_None. lia.
  Qed.

  Lemma done_conversation : forall k t, nth_error (terminals l) k = Some t ->
    exists h cm, nth_error (enqueued l) k = Some (h, cm) /\
      conversation K h cm (outputs (segment k l)) (exchange (segment k l)) (silent (segment k l)) t.
  Proof.
    intros k t Hk. destruct run_conv as (a & R & C).
    assert (Hlt : k < length (terminals l)) by (apply nth_error_Some; congruence).
    pose proof (conv_terminals_le K a l C).
    destruct (nth_error (enqueued l) k) as [[h cm]|] eqn:E.
    - destruct (conv_done K a l k h cm C E Hlt) as (t' & Ht & Hc & _).
      rewrite Hk in Ht. injection Ht as <-. eauto.
    - apply nth_error_None in E. lia.
  Qed.

  Lemma sent_complete : forall k h cm, nth_error (terminals l) k = Some (CeCommandSent h cm) ->
    nth_error (enqueued l) k = Some (h, cm) /\
    outputs (segment k l) = frags_bytes (enc_command K cm) /\
    silent (segment k l) = nsync (enc_command K cm).
  Proof.
    intros k h cm Hk. destruct (done_conversation k _ Hk) as (h' & cm' & E & H).
    inversion H; subst; auto.
  Qed.

  Lemma literals_agreed : forall k h cm, nth_error (enqueued l) k = Some (h, cm) -> regular cm ->
    all_agreed K cm (segment k l).
  Proof.
    intros k h cm Hk Hr. destruct run_conv as (a & R & C).
    destruct (Nat.lt_trichotomy k (length (terminals l))) as [Hlt|[->|Hlt]].
    - destruct (conv_done K a l k h cm C Hk Hlt) as (t & _ & _ & H). auto.
    - apply (conv_current_conversing K a l h cm C Hk). assumption.
    - rewrite segment_ge by assumption. intros pre d post _ H. cbn in H. lia.
  Qed.

  Lemma rejected_stops : forall k h cm s, nth_error (terminals l) k = Some (CeCommandRejected h cm s) ->
    nth_error (enqueued l) k = Some (h, cm) /\ tagged_bad (ctag cm) s /\
    exists pre d post, enc_command K cm = pre ++ FLiteral d LSync :: post /\
      outputs (segment k l) = frags_bytes pre /\ silent (segment k l) = nsync pre.
  Proof.
    intros k h cm s Hk. destruct (done_conversation k _ Hk) as (h' & cm' & E & H).
    inversion H; subst; eauto 10.
  Qed.

  Lemma resolved_once : forall k t, nth_error (terminals l) k = Some t ->
    exists h cm, nth_error (enqueued l) k = Some (h, cm) /\ resolves h cm t.
  Proof.
    intros k t Hk. destruct (done_conversation k _ Hk) as (h & cm & E & H).
    exists h, cm. split; [assumption|]. inversion H; subst; cbn; auto.
  Qed.

  Lemma auth_exchange : forall k t h ca, nth_error (terminals l) k = Some t ->
    nth_error (enqueued l) k = Some (h, command_of_authenticate ca) ->
    exists line xs ds lines tl s,
      t = CeAuthenticateStatusReceived h ca s /\ tagged_status (ca_tag ca) s /\
      enc_command K (command_of_authenticate ca) = [FLine line] /\
      exchange (segment k l) = XStarted h :: xs ++ tl /\
      rounds h xs ds /\ (tl = [] \/ exists q, tl = [XCont h q]) /\
      map (enc_authdata K) ds = map (fun x => [FLine x]) lines /\
      outputs (segment k l) = line ++ concat lines.
  Proof.
    intros k t h ca Hk Hc. destruct (done_conversation k _ Hk) as (h' & cm & E & H).
    rewrite Hc in E. injection E as <- <-.
    inversion H as [Hr|pre d post s Hr|ca' line xs ds lines tl s Hca Henc Hrd Hm Htl Hs|line tl s Hb|line q dn Hb];
      subst; try (destruct Hr as (p & Hp); discriminate); try discriminate.
    assert (ca' = ca).
    { destruct ca, ca'. injection Hca as -> -> ->. reflexivity. }
    subst ca'. exists line, xs, ds, lines, tl, s. repeat split; auto.
  Qed.

  Lemma idle_exchange : forall k t h cm, nth_error (terminals l) k = Some t ->
    nth_error (enqueued l) k = Some (h, cm) -> cbody cm = BIdle ->
    exists line, enc_command K cm = [FLine line] /\
      ((exists q dn, t = CeIdleDoneSent h /\ enc_idledone K = [FLine dn] /\
          exchange (segment k l) = [XIdle h; XAccepted h q; XDone h] /\
          outputs (segment k l) = line ++ dn) \/
       (exists s tl, t = CeIdleRejected h s /\ tagged_status (ctag cm) s /\
          exchange (segment k l) = XIdle h :: tl /\ (tl = [] \/ exists q, tl = [XAccepted h q]) /\
          outputs (segment k l) = line)).
  Proof.
    intros k t h cm Hk Hc Hi. destruct (done_conversation k _ Hk) as (h' & cm' & E & H).
    rewrite Hc in E. injection E as <- <-.
    inversion H as [Hr|pre d post s Hr|ca' line xs ds lines tl s Hca|line tl s Hb Henc Htl Hs|line q dn Hb Henc Hdn];
      subst; try (destruct Hr as (p & Hp); congruence); try discriminate.
    - exists (outputs (segment k l)). split; [assumption|]. right. exists s, tl. auto.
    - exists line. split; [assumption|]. left. exists q, dn. auto.
  Qed.

  (** DONE and authenticate data of a running exchange. *)
  Lemma running : forall h cm, current l = Some (h, cm) ->
    conversing K h cm (outputs (cur_seg l)) (exchange (cur_seg l)) (silent (cur_seg l)).
  Proof.
    intros h cm Hc. destruct run_conv as (a & R & C).
    apply (conv_current_conversing K a l h cm C Hc).
  Qed.

  (** *** Greeting *)

  Lemma greeting_first :
    (forall l1 b l2, l = l1 ++ ClNext (IOutput b) :: l2 -> greeted l1) /\
    (forall l1 e l2, l = l1 ++ ClNext (IEvent e) :: l2 ->
       greeted l1 \/ exists x, e = CeGreetingReceived x) /\
    (forall x1 x2 es1 es2 es3, events l <> es1 ++ CeGreetingReceived x1 :: es2 ++ CeGreetingReceived x2 :: es3).
  Proof.
    destruct run_abs as (a & S & _). split; [|split].
    - intros l1 b l2 E.
      destruct (asteps_split K relaxed _ _ _ S _ _ _ E) as (l0 & a1 & p & s & a2 & l3 & A1 & A2 & A3 & E1 & E2).
      apply (asteps_greetedb K relaxed) in A1.
      remember (p ++ _ :: s) as lb eqn:EE in A2.
      destruct A2 as [a1 cm g1 h1 Hg|a1 x1|a1 d1 s1 r1 HH|a1 s1 r1 HH|a1 s1 H0 H1|a1 s1 e1 H0 H1|a1 s1 b1 H0 H1
        |a1 Hset Hno|a1 raw1 rest ls gr H0 H1 H2|a1 raw1 rest ls q s1 H0 H1 H2 H3 H4
        |a1 raw1 rest ls m1 c1 e1 H0 H1 H2 H3 H4|a1 raw1 rest v e1 H0 H1 H2];
        destruct p as [|y [|y2 [|y3 p]]]; try discriminate.
      apply greetedb_spec. subst l1. rewrite app_nil_r. congruence.
    - intros l1 e l2 E.
      destruct (asteps_split K relaxed _ _ _ S _ _ _ E) as (l0 & a1 & p & s & a2 & l3 & A1 & A2 & A3 & E1 & E2).
      apply (asteps_greetedb K relaxed) in A1.
      remember (p ++ _ :: s) as lb eqn:EE in A2.
      destruct A2 as [a1 cm g1 h1 Hg|a1 x1|a1 d1 s1 r1 HH|a1 s1 r1 HH|a1 s1 H0 H1|a1 s1 e1 H0 H1|a1 s1 b1 H0 H1
        |a1 Hset Hno|a1 raw1 rest ls gr H0 H1 H2|a1 raw1 rest ls q s1 H0 H1 H2 H3 H4
        |a1 raw1 rest ls m1 c1 e1 H0 H1 H2 H3 H4|a1 raw1 rest v e1 H0 H1 H2];
        destruct p as [|y [|y2 [|y3 p]]]; try discriminate.
      + left. apply greetedb_spec. subst l1. rewrite app_nil_r. congruence.
      + right. injection EE as _ <- _. eauto.
      + left. apply greetedb_spec. subst l1. rewrite greetedb_app, <- A1, H0. reflexivity.
    - intros x1 x2 es1 es2 es3 E. apply asteps_greeting in S. unfold greeting_inv in S.
      destruct (a_greeted a).
      + destruct S as (gr & evs & Ee & F). rewrite E in Ee.
        assert (Hin : In (CeGreetingReceived x2) evs).
        { destruct es1 as [|e0 es1]; injection Ee as _ <-.
          - apply in_or_app. right. now left.
          - apply in_or_app. right. right. apply in_or_app. right. now left. }
        rewrite Forall_forall in F. now apply (F _ Hin x2).
      + destruct S as [S _]. rewrite S in E. destruct es1; discriminate.
  Qed.

  (** *** Calls *)

  Lemma set_auth_iff : forall l1 d r l2, l = l1 ++ ClSetAuth d r :: l2 ->
    r = match last_exch l1 with Some (XCont h _) => inl h | _ => inr d end.
  Proof.
    intros l1 d r l2 E. destruct run_abs as (a & S & _). eapply asteps_setauth; eauto.
  Qed.

  Lemma set_done_iff : forall l1 r l2, l = l1 ++ ClSetDone r :: l2 ->
    r = match last_exch l1 with Some (XAccepted h _) => Some h | _ => None end.
  Proof.
    intros l1 r l2 E. destruct run_abs as (a & S & _). eapply asteps_setdone; eauto.
  Qed.

  Lemma reactions : forall l1 raw r l2, l = l1 ++ ClRx (Crx raw (CvResponse r)) :: l2 ->
    match reaction (current l1) (last_exch l1) r with
    | Some e => exists l3, l2 = ClNext (IEvent e) :: l3
    | None => reports l2 = false
    end.
  Proof.
    intros l1 raw r l2 E. destruct run_abs as (a & S & _). eapply asteps_reaction; eauto.
  Qed.

  Lemma reported_all_app : forall e1 e2, reported_all (e1 ++ e2) = reported_all e1 ++ reported_all e2.
  Proof.
    induction e1 as [|e e1 IH]; intro e2; [reflexivity|]. cbn.
    destruct (reported e); rewrite IH; reflexivity.
  Qed.

  Lemma delivered_app : forall l1 l2, reports l2 = false -> delivered (l1 ++ l2) = delivered l1 ++ delivered l2.
  Proof.
    induction l1 as [|x l1 IH]; intros l2 H; [reflexivity|].
    assert (E : reports (l1 ++ l2) = reports l1) by (destruct l1; [exact H|reflexivity]).
    cbn. rewrite E. destruct x as [| | | |[raw []]| |]; rewrite IH by assumption; try reflexivity.
    destruct (reports l1); reflexivity.
  Qed.

  Lemma delivered_reported : delivered l = reported_all (events l).
  Proof.
    destruct run_abs as (a & S & _). clear Hrun. remember (astate_new g) as a0 eqn:E0. clear E0.
    induction S as [a0|a0 l0 a1 l1 a2 H IH H1]; [reflexivity|].
    rewrite delivered_app by (eapply astep_reports; eauto).
    rewrite events_app, reported_all_app, IH. f_equal.
    destruct H1 as [a1 cm g1 h1 Hg|a1 x1|a1 d1 s1 r1 HH|a1 s1 r1 HH|a1 s1 H0 H1|a1 s1 e1 H0 H1|a1 s1 b1 H0 H1
        |a1 Hset Hno|a1 raw1 rest ls gr H0 H1 H2|a1 raw1 rest ls q s1 H0 H1 H2 H3 H4
        |a1 raw1 rest ls m1 c1 e1 H0 H1 H2 H3 H4|a1 raw1 rest v e1 H0 H1 H2]; try reflexivity.
    - destruct e1; reflexivity.
    - apply handle_response_event in H4 as [H4 _]. cbn. rewrite H4. reflexivity.
    - destruct H2 as [(-> & _)|(-> & _)]; reflexivity.
  Qed.

  (** *** Malformed input *)

  Lemma malformed_dropped : forall app raw v rest xs ys hh,
    client_buf c = [] -> frame_verdict K relaxed (greetedb l) (Crx raw v) ->
    (v = CvMalformed \/ v = CvBareLf) ->
    concat xs = raw ++ rest -> concat ys = rest ->
    (exists h, drive K (fun h => app (no_errors h)) c xs [] h /\ no_errors h = hh) <->
    (exists h, drive K (fun h => app (no_errors h)) c ys [] h /\ no_errors h = hh).
  Proof.
    intros app raw v rest xs ys hh Hb Hf Hv Ex Ey. destruct run_abs as (a & S & R).
    rewrite (client_buf_rel _ _ _ _ R) in Hb.
    apply (asteps_greetedb K relaxed) in S. rewrite <- S in Hf. unfold frame_verdict in Hf. cbn in Hf.
    assert (B : exists e, bad_frame K relaxed (a_greeted a) raw v e).
    { destruct Hv as [-> | ->]; [exists (CerrMalformedMessage raw); left|exists (CerrExpectedCrlfGotLf raw); right];
        destruct (a_greeted a); auto. }
    destruct B as (e & B). eapply drive_bad; eauto.
  Qed.
End Thms.

Lemma no_panic : forall K relaxed g ops, no_trailing K relaxed -> single_lines K ->
  exists c l, ran K relaxed g ops c l.
Proof.
  intros K relaxed g ops H1 H2. unfold ran.
  pose proof (client_run_no_panic K relaxed H1 H2 ops _ _ (crel_new K relaxed g)) as H.
  destruct (client_run K (client_new g relaxed) ops) as [[c|] l]; [eauto|cbn in H; congruence].
Qed.

Lemma refused_auth : forall K c d c' d',
  client_set_authenticate_data K c d = Val (c', inr d') -> c' = c /\ d' = d.
Proof.
  intros K [gn s r] d c' d' H. unfold client_set_authenticate_data, cs_set_authenticate_data in H.
  cbn [c_send] in H.
  destruct (cs_current s) as [[h c0 fs []|h ca []|h t0 []]|] eqn:E; cbn in H;
    try (injection H as <- <-; auto; fail).
  destruct (single_line (enc_authdata K d)); discriminate.
Qed.

Lemma refused_done : forall K c c',
  client_set_idle_done K c = Val (c', None) -> c' = c.
Proof.
  intros K [gn s r] c' H. unfold client_set_idle_done, cs_set_idle_done in H.
  cbn [c_send] in H.
  destruct (cs_current s) as [[h c0 fs []|h ca []|h t0 []]|] eqn:E; cbn in H;
    try (injection H as <-; auto; fail).
  destruct (single_line (enc_idledone K)); discriminate.
Qed.

Lemma framing_unique : forall {M L} (dec : bytes -> dec_result M L) relaxed acc w1 w2 ls1 ls2 o1 o2 r1 r2,
  framed dec relaxed acc w1 ls1 o1 -> framed dec relaxed acc w2 ls2 o2 -> w1 ++ r1 = w2 ++ r2 ->
  w1 = w2 /\ ls1 = ls2 /\ o1 = o2.
Proof.
  intros M L dec relaxed acc w1 w2 ls1 ls2 o1 o2 r1 r2 H1 H2 E.
  destruct (scan_det dec relaxed acc [] w1 ls1 o1 H1 w2 ls2 o2 r1 r2 H2 E) as (-> & -> & ->). auto.
Qed.
