(** Termination, absence of panics, and recovery from malformed input of the client. *)
From Coq Require Import List NArith Bool PeanoNat Lia ZifyBool ZifyNat ZifyN.
From Verif Require Import Base Types Codec Handle Receive ClientSend Client SpecFraming
  SpecClient SpecDrive ReceiveProofs ClientRecv ClientAbs ClientInv ClientProps ClientDet.
Import ListNotations.

(** *** Termination *)

Definition rank (m : current_message) : nat :=
  match m with
  | CmCommand _ _ _ (CaPushingFragments _) => 2
  | CmCommand _ _ _ (CaWaitingForFragmentsSent _) => 1
  | CmCommand _ _ _ (CaWaitingForLiteralAccepted _) => 0
  | CmAuthenticate _ _ (AaPushingAuthenticate _ | AaPushingAuthenticateData _) => 2
  | CmAuthenticate _ _ (AaWaitingForAuthenticateSent | AaWaitingForAuthenticateDataSent) => 1
  | CmAuthenticate _ _ _ => 0
  | CmIdle _ _ (IaPushingIdle _ | IaPushingIdleDone _) => 2
  | CmIdle _ _ (IaWaitingForIdleSent | IaWaitingForIdleDoneSent) => 1
  | CmIdle _ _ _ => 0
  end.

Definition send_work (s : csend) : nat :=
  3 * length (cs_queue s) + match cs_current s with Some m => rank m | None => 0 end.

Definition work (a : astate) : nat := 3 * length (a_buf a) + send_work (a_send a).

Lemma rank_le : forall m, rank m <= 2.
Proof. intros [h c fs []|h ca []|h t []]; cbn; lia. Qed.

Lemma progress_work : forall q m s r, cs_progress q m = (s, r) ->
  match r with
  | CsOk None => send_work s <= 3 * length q + rank m
  | CsOk (Some _) | CsOutput _ => send_work s < 3 * length q + rank m
  | CsPanic => True
  end.
Proof.
  intros q m s r H. unfold cs_progress in H.
  destruct m as [h c fs act|h ca act|h t act]; destruct act; cbn in H;
    repeat match type of H with context [push_fragments ?f] =>
      destruct (push_fragments f) as [[? [?|]] ?] end;
    repeat match type of H with context [match ?o with nil => _ | cons _ _ => _ end] =>
      destruct o end; cbn in H;
    repeat match type of H with context [match ?o with Some _ => _ | None => _ end] =>
      destruct o end;
    inversion H; subst; cbn; lia.
Qed.

Section Live.
  Variable K : Codecs.
  Variable relaxed : bool.

  Notation astep := (astep K relaxed).
  Notation asteps := (asteps K relaxed).
  Notation anext := (anext K relaxed).
  Notation quiesce := (quiesce K).
  Notation crel := (crel K relaxed).

  Lemma cs_next_work : forall s s' r, cs_next K s = (s', r) ->
    match r with
    | CsOk None => send_work s' <= send_work s
    | CsOk (Some _) | CsOutput _ => send_work s' < send_work s
    | CsPanic => True
    end.
  Proof.
    intros [q cur] s' r H. unfold cs_next in H. cbn [cs_current cs_queue] in H.
    destruct cur as [m|].
    - apply progress_work in H. unfold send_work at 2 4 6. cbn [cs_queue cs_current]. exact H.
    - destruct q as [|[h c] q].
      + injection H as <- <-. lia.
      + destruct (queued_start K h c) as [m|]; [|injection H as <- <-; exact I].
        apply progress_work in H. pose proof (rank_le m).
        unfold send_work at 2 4 6. cbn [cs_queue cs_current length].
        destruct r as [[e|]|b|]; lia.
  Qed.

  Lemma handle_response_work : forall c m c' ir, client_handle_response c m = (c', ir) ->
    send_work (c_send c') <= send_work (c_send c) + 2.
  Proof.
    intros c m c' ir H. unfold client_handle_response in H.
    assert (T : forall s st s' t, cs_maybe_terminate s st = (s', t) -> send_work s' <= send_work s).
    { intros [q cur] st s' t E. unfold cs_maybe_terminate in E. cbn [cs_current] in E.
      unfold send_work.
      destruct cur as [[h c0 fs act|h ca act|h t0 act]|];
        try (injection E as <- <-; cbn; lia);
        (destruct st as [tg b|b|cd tx]; try (injection E as <- <-; cbn; lia)).
      - destruct (status_kind_is_bad (sb_kind b) && bytes_eqb tg (ctag c0));
          injection E as <- <-; cbn; lia.
      - destruct (bytes_eqb tg (ca_tag ca)); [destruct (sb_kind b)|];
          injection E as <- <-; cbn; lia.
      - destruct (bytes_eqb tg t0); injection E as <- <-; cbn; lia. }
    destruct m as [st|d|q].
    - destruct (cs_maybe_terminate (c_send c) st) as [s1 t] eqn:E.
      specialize (T _ _ _ _ E).
      destruct t as [[]|]; injection H as <- <-; cbn [c_send c_set_send]; lia.
    - injection H as <- <-. lia.
    - unfold cs_literal_continue, cs_authenticate_continue, cs_idle_continue in H.
      destruct (cs_current (c_send c)) as [[h c0 fs []|h ca []|h t0 []]|] eqn:Ec;
        cbn in H; rewrite ?Ec in H; injection H as <- <-;
        unfold send_work; cbn; rewrite ?Ec; cbn; try pose proof (rank_le (CmIdle h t0 IaWaitingForIdleSent)); lia.
  Qed.

  Lemma quiesce_work : forall a, work (quiesce a) <= work a.
  Proof.
    intro a. unfold ClientAbs.quiesce. destruct (a_greeted a); [|lia].
    destruct (cs_next K (a_send a)) as [s [[e|]|b|]] eqn:E; try lia.
    apply cs_next_work in E. unfold work. cbn [a_buf a_send a_set_send a_set_buf c_send]. lia.
  Qed.

  Lemma astep_work : forall a l a', next_label l -> astep a l a' -> l <> [ClNext INeedMore] ->
    work a' < work a.
  Proof.
    intros a l a' Hl H Hn.
    assert (FR : forall M L (dec : bytes -> dec_result M L) acc raw ls o rest,
      framed dec relaxed acc raw ls o -> a_buf a = raw ++ rest -> S (length rest) <= length (a_buf a)).
    { intros M L dec acc raw ls o rest F B. rewrite B, app_length.
      apply scan_nonempty in F. lia. }
    destruct H as [a cm g1 h1 Hg|a x1|a d1 s1 r1 HH|a s1 r1 HH|a s1 H0 H1|a s1 e1 H0 H1|a s1 b1 H0 H1
      |a Hset Hno|a raw1 rest ls gr H0 H1 H2|a raw1 rest ls q s1 H0 H1 H2 H3 H4
      |a raw1 rest ls m1 c1 e1 H0 H1 H2 H3 H4|a raw1 rest v e1 H0 H1 H2];
      try (destruct Hl as [(?&?)|[(?&?&?)|(?&?)]]; discriminate).
    - apply cs_next_work in H1. unfold work. cbn [a_buf a_send a_set_send a_set_buf c_send] in *. lia.
    - apply cs_next_work in H1. unfold work. cbn [a_buf a_send a_set_send a_set_buf c_send] in *. lia.
    - congruence.
    - specialize (FR _ _ _ _ _ _ _ _ H2 H1). unfold work. cbn [a_buf a_send a_set_send a_set_buf c_send] in *. lia.
    - specialize (FR _ _ _ _ _ _ _ _ H3 H2). unfold work. cbn [a_buf a_send a_set_send a_set_buf c_send] in *.
      assert (W : send_work s1 <= send_work (a_send a) + 2).
      { unfold cs_literal_continue in H4. unfold send_work.
        destruct (cs_current (a_send a)) as [[h c0 fs []|h ca []|h t0 []]|]; try discriminate.
        injection H4 as <-. cbn. lia. }
      lia.
    - specialize (FR _ _ _ _ _ _ _ _ H3 H2). apply handle_response_work in H4.
      unfold work. cbn [a_buf a_send a_set_send a_set_buf c_send] in *. lia.
    - assert (S (length rest) <= length (a_buf a)).
      { destruct H2 as [(_ & _ & H2)|(_ & _ & H2)]; destruct (a_greeted a); destruct H2 as (ls & H2);
          eapply FR; eauto. }
      unfold work. cbn [a_buf a_send a_set_send a_set_buf c_send]. lia.
  Qed.

  Lemma anext_work : forall a g r a', anext a g r a' -> r <> INeedMore -> r <> IPanic ->
    work a' < work a.
  Proof.
    intros a g r a' H Hn Hp.
    induction H as [a r a' H|a m r a' H|a m a1 g r a' H H2 IH|a a' H]; [..|congruence];
      pose proof (quiesce_work a).
    - apply astep_work in H; [lia|left; eauto|congruence].
    - apply astep_work in H; [lia|right; left; eauto|congruence].
    - apply astep_work in H; [|right; right; eauto|congruence]. specialize (IH Hn Hp). lia.
  Qed.

  (** [n] calls of [next]. *)
  Lemma nexts_work : forall n c a c' l, crel c a ->
    client_run K c (repeat CopNext n) = (Some c', l) ->
    In (ClNext INeedMore) l \/ n <= work a.
  Proof.
    induction n as [|n IH]; intros c a c' l R H; [right; lia|].
    cbn [repeat client_run client_step] in H.
    destruct (client_next K c) as [[c1 g] r] eqn:E.
    destruct (c_is_panic r) eqn:Ep; [discriminate|].
    assert (Hp : r <> IPanic) by (intros ->; discriminate).
    destruct (client_run K c1 (repeat CopNext n)) as [c2 l2] eqn:E2.
    injection H as -> <-.
    destruct (client_next_sim K relaxed c a c1 g r R E) as (a1 & N & _ & _ & R1).
    assert (D : r = INeedMore \/ r <> INeedMore) by (destruct r; auto; right; discriminate).
    destruct D as [->|D].
    - left. apply in_or_app. left. apply in_or_app. right. now left.
    - destruct (IH c1 a1 c' l2 (R1 Hp) E2) as [Hin|Hle].
      + left. apply in_or_app. now right.
      + right. pose proof (anext_work _ _ _ _ N D Hp). lia.
  Qed.

  Lemma conv_work : forall a l, conv_inv K a l ->
    send_work (a_send a) <= 3 * (length (enqueued l) - length (terminals l)).
  Proof.
    intros a l (dn & Henq & [Hlen _] & _). rewrite Henq, !app_length, <- Hlen.
    unfold send_work. destruct (cs_current (a_send a)) as [m|]; [|cbn; lia].
    pose proof (rank_le m). destruct m; cbn [cur_cmd length]; lia.
  Qed.

  (** *** Panics *)

  Notation no_trailing := (no_trailing K relaxed).
  Notation single_lines := (single_lines K).

  Lemma cs_next_no_panic : single_lines -> forall s, snd (cs_next K s) <> CsPanic.
  Proof.
    intros (SL & _) s H. unfold cs_next in H.
    assert (P : forall q m, snd (cs_progress q m) <> CsPanic).
    { intros q m. unfold cs_progress. destruct (cm_push_to_buffer m) as [[|b out] m1];
        [destruct (cm_finish_sending m1)|]; discriminate. }
    destruct (cs_current s) as [m|]; [now apply P in H|].
    destruct (cs_queue s) as [|[h c] q]; [discriminate|].
    destruct (queued_start K h c) as [m|] eqn:E; [now apply P in H|].
    unfold queued_start in E. destruct (cbody c) eqn:Eb; try discriminate.
    - destruct (SL c) as [x Hx]; [intros (p & Hp); congruence|]. rewrite Hx in E. discriminate.
    - destruct (SL c) as [x Hx]; [intros (p & Hp); congruence|]. rewrite Hx in E. discriminate.
  Qed.

  Lemma anext_no_panic : no_trailing -> single_lines -> forall a g r a', anext a g r a' -> r <> IPanic.
  Proof.
    intros (T1 & T2) SL a g r a' H.
    induction H as [a r a' H|a m r a' H|a m a1 g r a' H H2 IH|a a' H]; auto.
    - intros ->. remember [ClNext IPanic] as lb eqn:EL in H. destruct H; discriminate.
    - intros ->. remember [ClRx m; ClNext IPanic] as lb eqn:EL in H. destruct H; discriminate.
    - exfalso. destruct H as [(_ & raw & rest & _ & H)|(_ & H)].
      + destruct (a_greeted (quiesce a)); destruct H as (ls & m & H).
        * eapply T2; eauto.
        * eapply T1; eauto.
      + now apply (cs_next_no_panic SL) in H.
  Qed.

  Lemma client_step_no_panic : no_trailing -> single_lines -> forall c a o, crel c a ->
    fst (client_step K c o) <> None.
  Proof.
    intros T SL c a o R.
    destruct o as [cmd|x|d| |].
    - discriminate.
    - destruct (enqueue_input_sim K relaxed c a x R) as (c' & E & _). cbn. rewrite E. discriminate.
    - destruct SL as (_ & SL & _). cbn. unfold client_set_authenticate_data, cs_set_authenticate_data.
      destruct (cs_current (c_send c)) as [[h c0 fs []|h ca []|h t0 []]|]; cbn; try discriminate.
      destruct (SL d) as [x ->]. discriminate.
    - destruct SL as (_ & _ & [x SL]). cbn. unfold client_set_idle_done, cs_set_idle_done.
      destruct (cs_current (c_send c)) as [[h c0 fs []|h ca []|h t0 []]|]; cbn; try discriminate.
      rewrite SL. discriminate.
    - cbn [client_step]. destruct (client_next K c) as [[c' g] r] eqn:E.
      destruct (client_next_sim K relaxed c a c' g r R E) as (a' & N & _).
      pose proof (anext_no_panic T SL _ _ _ _ N) as Hp.
      destruct r; cbn; congruence.
  Qed.

  Lemma client_run_no_panic : no_trailing -> single_lines -> forall ops c a, crel c a ->
    fst (client_run K c ops) <> None.
  Proof.
    intros T SL. induction ops as [|o ops IH]; intros c a R; [discriminate|].
    cbn [client_run].
    pose proof (client_step_no_panic T SL c a o R) as S.
    destruct (client_step K c o) as [[c'|] l] eqn:E; [|cbn in S; congruence].
    destruct (client_step_sim K relaxed c a o c' l R E) as (a' & _ & R').
    specialize (IH c' a' R'). destruct (client_run K c' ops). exact IH.
  Qed.

  (** *** Malformed input *)

  Lemma no_errors_app : forall l1 l2, no_errors (l1 ++ l2) = no_errors l1 ++ no_errors l2.
  Proof. intros. apply filter_app. Qed.

  Section Bad.
    Variable app0 : list clog -> option cop.
    Let app := fun h => app0 (no_errors h).

    Notation adrive := (adrive K relaxed app).

    Lemma adrive_history : forall A h h', adrive A h h' -> forall h2, no_errors h2 = no_errors h ->
      exists h2', adrive A h2 h2' /\ no_errors h2' = no_errors h'.
    Proof.
      induction 1 as [b h|b h o l b' h' H1 H2 H3 _ IH|b h o H1 H2 H3
        |b h g r b' h' H1 H2 H3 H4 _ IH|b h g b' H1 H2]; intros h2 E;
        unfold app in *; try rewrite <- E in H1.
      - exists h2. split; [apply ad_stop|assumption].
      - destruct (IH (h2 ++ [l])) as (h2' & D & E'); [rewrite !no_errors_app; congruence|].
        exists h2'. split; [eapply ad_call; eauto|assumption].
      - exists (h2 ++ [ClPanic]). split; [eapply ad_call_panic; eauto|].
        rewrite !no_errors_app. congruence.
      - destruct (IH (h2 ++ [ClNext r])) as (h2' & D & E'); [rewrite !no_errors_app; congruence|].
        exists h2'. split; [eapply ad_next; eauto|assumption].
      - exists (h2 ++ [ClPanic]). split; [eapply ad_next_panic; eauto|].
        rewrite !no_errors_app. congruence.
    Qed.

    Lemma adrive_quiesce : forall a b h h', app h = None -> quiesce a = quiesce b ->
      adrive a h h' -> adrive b h h'.
    Proof.
      intros a b h h' Ha E H.
      destruct H as [a h|a h o l b' h' H1 H2 H3 H4|a h o H1 H2 H3
        |a h g2 r b' h' H1 H2 H3 H4 H5|a h g2 b' H1 H2]; try congruence.
      - apply ad_stop.
      - eapply ad_next; eauto. eapply anext_quiesce; eauto.
      - eapply ad_next_panic; eauto. eapply anext_quiesce; eauto.
    Qed.

    Lemma quiesce_set_buf : forall a b, quiesce (a_set_buf a b) = a_set_buf (quiesce a) b.
    Proof.
      intros a b. unfold ClientAbs.quiesce, a_set_buf, a_set_send. cbn.
      destruct (a_greeted a) eqn:G; [|now rewrite G].
      destruct (cs_next K (a_send a)) as [s [[e|]|x|]]; cbn; rewrite ?G; reflexivity.
    Qed.

    Lemma quiesce_greeted : forall a, a_greeted (quiesce a) = a_greeted a.
    Proof.
      intro a. unfold ClientAbs.quiesce. destruct (a_greeted a) eqn:G; [|assumption].
      destruct (cs_next K (a_send a)) as [s [[e|]|x|]]; assumption.
    Qed.

    Lemma acall_set_buf : forall a o b, is_call o ->
      acall K (a_set_buf a b) o =
      match acall K a o with Some (l, a') => Some (l, a_set_buf a' b) | None => None end.
    Proof.
      intros a o b Ho. unfold acall, a_set_buf, a_set_send. cbn.
      destruct o; try contradiction; cbn.
      - destruct (hgen_generate (a_gen a)); reflexivity.
      - destruct (cs_set_authenticate_data K (a_send a) d) as [[s r]|]; reflexivity.
      - destruct (cs_set_idle_done K (a_send a)) as [[s r]|]; reflexivity.
    Qed.

    Lemma acall_greeted : forall a o l a', is_call o -> acall K a o = Some (l, a') ->
      a_greeted a' = a_greeted a.
    Proof.
      intros a o l a' Ho H. unfold acall in H.
      destruct o; try contradiction; cbn.
      - destruct (hgen_generate (a_gen a)). injection H as <- <-. reflexivity.
      - destruct (cs_set_authenticate_data K (a_send a) d) as [[s r]|]; [|discriminate].
        injection H as <- <-. reflexivity.
      - destruct (cs_set_idle_done K (a_send a)) as [[s r]|]; [|discriminate].
        injection H as <- <-. reflexivity.
    Qed.

    Variable raw : bytes.
    Variable v : cverdict.
    Variable e : cerror.

    (** [next] with a bad frame in front of the buffer: either the send side acts, whatever
        the buffer, or the frame is dropped. *)
    Lemma bad_next : forall a rest, bad_frame K relaxed (a_greeted a) raw v e ->
      (exists r a', r <> INeedMore /\ a_greeted a' = a_greeted a /\
         forall b, anext (a_set_buf a b) [] r (a_set_buf a' b)) \/
      anext (a_set_buf a (raw ++ rest)) [Crx raw v] (IError e) (a_set_buf (quiesce a) rest).
    Proof.
      intros a rest Hb. destruct (quiesce_settled K a) as [Hs|(G & Q & Hn)].
      - right. apply an_recv. rewrite quiesce_set_buf.
        apply (a_bad K relaxed (a_set_buf (quiesce a) (raw ++ rest)) raw rest v e).
        + exact Hs.
        + reflexivity.
        + cbn. now rewrite quiesce_greeted.
      - left. destruct (cs_next K (a_send a)) as [s [[ev|]|b|]] eqn:E; cbn in Hn; try contradiction.
        + exists (IEvent (cs_event_ev ev)), (a_set_send a s). split; [discriminate|].
          split; [reflexivity|]. intro b. apply an_send. rewrite quiesce_set_buf, Q.
          exact (a_event K relaxed (a_set_buf a b) s ev G E).
        + exists (IOutput b), (a_set_send a s). split; [discriminate|].
          split; [reflexivity|]. intro b0. apply an_send. rewrite quiesce_set_buf, Q.
          exact (a_output K relaxed (a_set_buf a b0) s b G E).
        + exists IPanic, a. split; [discriminate|]. split; [reflexivity|].
          intro b. apply an_stuck. rewrite quiesce_set_buf, Q. right. cbn. now rewrite E.
    Qed.

    Lemma set_buf_eq : forall a, a = a_set_buf a (a_buf a).
    Proof. intros []; reflexivity. Qed.

    Lemma bad_dropped : forall A h h', adrive A h h' -> forall a rest,
      A = a_set_buf a (raw ++ rest) -> bad_frame K relaxed (a_greeted a) raw v e ->
      forall h2, no_errors h2 = no_errors h ->
      exists h2', adrive (a_set_buf a rest) h2 h2' /\ no_errors h2' = no_errors h'.
    Proof.
      induction 1 as [b h|b h o l b' h' H1 H2 H3 _ IH|b h o H1 H2 H3
        |b h g r b' h' H1 H2 H3 H4 H5 IH|b h g b' H1 H2]; intros a rest EA Hbad h2 E.
      - exists h2. split; [apply ad_stop|assumption].
      - subst b. rewrite acall_set_buf in H3 by assumption.
        destruct (acall K a o) as [[l0 a']|] eqn:Ec; [|discriminate]. injection H3 as -> <-.
        destruct (IH a' rest eq_refl) with (h2 := h2 ++ [l]) as (h2' & D & E').
        + now rewrite (acall_greeted a o l a' H2 Ec).
        + rewrite !no_errors_app. congruence.
        + exists h2'. split; [|assumption].
          eapply ad_call; [|exact H2| |exact D].
          * unfold app in *. now rewrite E.
          * now rewrite acall_set_buf, Ec by assumption.
      - exists (h2 ++ [ClPanic]). split; [|rewrite !no_errors_app; congruence].
        subst b. rewrite acall_set_buf in H3 by assumption.
        destruct (acall K a o) as [[l0 a']|] eqn:Ec; [discriminate|].
        eapply ad_call_panic; [|exact H2|].
        + unfold app in *. now rewrite E.
        + now rewrite acall_set_buf, Ec by assumption.
      - subst b. destruct (bad_next a rest Hbad) as [(r2 & a2 & Hr2 & Hg2 & N)|N].
        + destruct (anext_det K relaxed _ _ _ _ H2 _ _ _ (N _)) as (-> & -> & Eb).
          specialize (Eb H4). subst b'.
          destruct (IH a2 rest eq_refl) with (h2 := h2 ++ [ClNext r2]) as (h2' & D & E').
          * now rewrite Hg2.
          * rewrite !no_errors_app. congruence.
          * exists h2'. split; [|assumption].
            eapply ad_next; [|apply N|assumption|assumption|exact D].
            unfold app in *. now rewrite E.
        + destruct (anext_det K relaxed _ _ _ _ H2 _ _ _ N) as (-> & -> & Eb).
          specialize (Eb H4). subst b'.
          destruct (adrive_history _ _ _ H5 h2) as (h2' & D & E').
          * rewrite no_errors_app. cbn. now rewrite app_nil_r.
          * exists h2'. split; [|assumption].
            eapply adrive_quiesce; [|  |exact D].
            -- unfold app in *. now rewrite E.
            -- rewrite !quiesce_set_buf. now rewrite quiesce_idem.
      - subst b. destruct (bad_next a rest Hbad) as [(r2 & a2 & Hr2 & Hg2 & N)|N].
        + destruct (anext_det K relaxed _ _ _ _ H2 _ _ _ (N _)) as (-> & <- & _).
          exists (h2 ++ [ClPanic]). split; [|rewrite !no_errors_app; congruence].
          eapply ad_next_panic; [|apply N]. unfold app in *. now rewrite E.
        + destruct (anext_det K relaxed _ _ _ _ H2 _ _ _ N) as (_ & X & _). discriminate.
    Qed.

    Lemma bad_inserted : forall A h h', adrive A h h' -> forall a rest,
      A = a_set_buf a rest -> bad_frame K relaxed (a_greeted a) raw v e ->
      forall h2, no_errors h2 = no_errors h ->
      exists h2', adrive (a_set_buf a (raw ++ rest)) h2 h2' /\ no_errors h2' = no_errors h'.
    Proof.
      induction 1 as [b h|b h o l b' h' H1 H2 H3 _ IH|b h o H1 H2 H3
        |b h g r b' h' H1 H2 H3 H4 H5 IH|b h g b' H1 H2]; intros a rest EA Hbad h2 E.
      - exists h2. split; [apply ad_stop|assumption].
      - subst b. rewrite acall_set_buf in H3 by assumption.
        destruct (acall K a o) as [[l0 a']|] eqn:Ec; [|discriminate]. injection H3 as -> <-.
        destruct (IH a' rest eq_refl) with (h2 := h2 ++ [l]) as (h2' & D & E').
        + now rewrite (acall_greeted a o l a' H2 Ec).
        + rewrite !no_errors_app. congruence.
        + exists h2'. split; [|assumption].
          eapply ad_call; [|exact H2| |exact D].
          * unfold app in *. now rewrite E.
          * now rewrite acall_set_buf, Ec by assumption.
      - exists (h2 ++ [ClPanic]). split; [|rewrite !no_errors_app; congruence].
        subst b. rewrite acall_set_buf in H3 by assumption.
        destruct (acall K a o) as [[l0 a']|] eqn:Ec; [discriminate|].
        eapply ad_call_panic; [|exact H2|].
        + unfold app in *. now rewrite E.
        + now rewrite acall_set_buf, Ec by assumption.
      - subst b. destruct (bad_next a rest Hbad) as [(r2 & a2 & Hr2 & Hg2 & N)|N].
        + destruct (anext_det K relaxed _ _ _ _ H2 _ _ _ (N _)) as (-> & -> & Eb).
          specialize (Eb H4). subst b'.
          destruct (IH a2 rest eq_refl) with (h2 := h2 ++ [ClNext r2]) as (h2' & D & E').
          * now rewrite Hg2.
          * rewrite !no_errors_app. congruence.
          * exists h2'. split; [|assumption].
            eapply ad_next; [|apply N|assumption|assumption|exact D].
            unfold app in *. now rewrite E.
        + assert (D0 : adrive (a_set_buf a rest) h h') by (eapply ad_next; eauto).
          assert (D1 : adrive (a_set_buf (quiesce a) rest) h h').
          { eapply adrive_quiesce; [exact H1| |exact D0].
            rewrite !quiesce_set_buf. now rewrite quiesce_idem. }
          destruct (adrive_history _ _ _ D1 (h2 ++ [ClNext (IError e)])) as (h2' & D & E').
          * rewrite no_errors_app. cbn. now rewrite app_nil_r.
          * exists h2'. split; [|assumption].
            eapply ad_next; [|exact N|discriminate|discriminate|exact D].
            unfold app in *. now rewrite E.
      - subst b. destruct (bad_next a rest Hbad) as [(r2 & a2 & Hr2 & Hg2 & N)|N].
        + destruct (anext_det K relaxed _ _ _ _ H2 _ _ _ (N _)) as (-> & <- & _).
          exists (h2 ++ [ClPanic]). split; [|rewrite !no_errors_app; congruence].
          eapply ad_next_panic; [|apply N]. unfold app in *. now rewrite E.
        + assert (D0 : adrive (a_set_buf a rest) h (h ++ [ClPanic])) by (eapply ad_next_panic; eauto).
          assert (D1 : adrive (a_set_buf (quiesce a) rest) h (h ++ [ClPanic])).
          { eapply adrive_quiesce; [exact H1| |exact D0].
            rewrite !quiesce_set_buf. now rewrite quiesce_idem. }
          destruct (adrive_history _ _ _ D1 (h2 ++ [ClNext (IError e)])) as (h2' & D & E').
          * rewrite no_errors_app. cbn. now rewrite app_nil_r.
          * exists h2'. split; [|assumption].
            eapply ad_next; [|exact N|discriminate|discriminate|exact D].
            unfold app in *. now rewrite E.
    Qed.
  End Bad.

  Lemma drive_bad : forall app0 c a raw v e rest xs ys hh,
    crel c a -> a_buf a = [] -> bad_frame K relaxed (a_greeted a) raw v e ->
    concat xs = raw ++ rest -> concat ys = rest ->
    (exists h, drive K (fun h => app0 (no_errors h)) c xs [] h /\ no_errors h = hh) <->
    (exists h, drive K (fun h => app0 (no_errors h)) c ys [] h /\ no_errors h = hh).
  Proof.
    intros app0 c a raw v e rest xs ys hh R B Hbad Ex Ey.
    assert (EA : forall b, a_add a b = a_set_buf a b) by (intro b; unfold a_add; now rewrite B).
    split; intros (h & D & <-).
    - pose proof (drive_adrive K relaxed _ _ _ _ _ D a R) as D1. rewrite EA, Ex in D1.
      destruct (bad_dropped app0 raw v e _ _ _ D1 a rest eq_refl Hbad [] eq_refl) as (h2 & D2 & E2).
      exists h2. split; [|assumption]. eapply adrive_drive; [exact D2|exact R|].
      now rewrite EA, Ey.
    - pose proof (drive_adrive K relaxed _ _ _ _ _ D a R) as D1. rewrite EA, Ey in D1.
      destruct (bad_inserted app0 raw v e _ _ _ D1 a rest eq_refl Hbad [] eq_refl) as (h2 & D2 & E2).
      exists h2. split; [|assumption]. eapply adrive_drive; [exact D2|exact R|].
      now rewrite EA, Ex.
  Qed.
End Live.
