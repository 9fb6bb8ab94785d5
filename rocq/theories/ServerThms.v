(** The properties of the server, for runs of the modelled API. *)
From Coq Require Import List NArith Bool PeanoNat Lia ZifyBool ZifyNat ZifyN.
From Verif Require Import Base Types Codec Handle Receive ServerSend Server SpecFraming
  SpecClient SpecServer SpecDrive ReceiveProofs ClientRecv ServerRecv ServerAbs ServerInv
  ServerProps ServerLive ServerDet ServerBad ClientThms.
Import ListNotations.

Section Thms.
  Variable K : Codecs.
  Variable g : hgen.
  Variable o : soptions.
  Variable gr : greeting.
  Variable ops : list sop.
  Variable s : server.
  Variable l : list slog.
  Hypothesis Hrun : sran K g o gr ops s l.

  Lemma srun_abs : exists a, xsteps K o (xnew g gr) l a /\ srel K o s a /\ sinv K o gr l a.
  Proof.
    destruct (server_run_new K o g gr ops s l Hrun) as (a & S & R). exists a.
    split; [exact S|]. split; [exact R|]. eapply sinv_steps; eauto.
  Qed.

  (** Once the last result is not an output, nothing is being sent. *)
  Lemma settled_current : forall a, sinv K o gr l a -> settled l = true ->
    ss_current (x_send a) = None.
  Proof.
    intros a I Hs. pose proof (si_last _ _ _ _ _ I) as Hl.
    destruct (ss_current (x_send a)) as [m|]; [|reflexivity].
    destruct Hl as (l1 & lm & E & Hr & _). exfalso.
    assert (X : forall h1 h2, sresults h2 = [] -> last_result (h1 ++ h2) = last_result h1).
    { intros h1 h2. revert h1. induction h2 as [|e h2 IH]; intros h1 H; [now rewrite app_nil_r|].
      replace (h1 ++ e :: h2) with ((h1 ++ [e]) ++ h2) by (now rewrite <- app_assoc).
      rewrite IH, last_result_app by (destruct e; cbn in H; congruence).
      destruct e; auto. discriminate. }
    unfold settled in Hs.
    replace (l1 ++ SlNext (IOutput (smsg_bytes K m)) :: lm)
      with ((l1 ++ [SlNext (IOutput (smsg_bytes K m))]) ++ lm) in E by (now rewrite <- app_assoc).
    rewrite E, X, last_result_app in Hs by assumption. discriminate.
  Qed.

  Lemma calm_start : forall a, sinv K o gr l a -> settled l = true -> no_internal o gr l -> x_calm a.
  Proof.
    intros a I Hs Hn. unfold x_calm, pending. rewrite (settled_current a I Hs). cbn [opt_list app].
    rewrite <- (unsent_inv K o gr l a I). unfold no_internal in Hn.
    induction (unsent o gr l) as [|m ms IH]; [reflexivity|].
    unfold count_internal. cbn [filter].
    destruct (internal m) eqn:Em.
    - exfalso. destruct m as [x|[h|] r]; try discriminate. apply (Hn (SmResponse None r)); [now left|reflexivity].
    - apply IH. intros m' Hin. apply Hn. now right.
  Qed.

  (** *** C01 *)
  Lemma s_chunking : forall app xs ys h, polite app -> settled l = true -> no_internal o gr l ->
    concat xs = concat ys ->
    (sdrive K app s xs [] h <-> sdrive K app s ys [] h).
  Proof.
    intros app xs ys h Hp Hs Hn E. destruct srun_abs as (a & S & R & I).
    assert (G : xgood K o a []).
    { split; [apply R|]. pose proof (calm_start a I Hs Hn) as C. split; [now left|auto]. }
    split; apply (sdrive_chunks K o app Hp s a); auto.
  Qed.

  (** *** C02 *)
  Lemma s_partition : sinputs l = staken_bytes l ++ server_buf s.
  Proof.
    destruct srun_abs as (a & S & R & I). rewrite (server_buf_rel _ _ _ _ R). apply I.
  Qed.

  Lemma s_unread : sunread l = server_buf s.
  Proof.
    unfold sunread. rewrite s_partition. apply skipn_app_exact.
  Qed.

  (** *** C03 *)
  Lemma s_frames : forall l1 raw v l2, l = l1 ++ SlRx (SrxMsg raw v) :: l2 ->
    sframe_limited K o (smode l1) raw (slits l1) v /\
    (exists rest, sunread l1 = raw ++ rest) /\
    exists l3, l2 = SlNext (sresult raw v) :: l3.
  Proof. destruct srun_abs as (a & S & R & I). eapply frames_x; eauto. Qed.

  Lemma s_reports : forall l1 r l2, l = l1 ++ SlNext r :: l2 -> is_report r = true ->
    exists l0 raw v, l1 = l0 ++ [SlRx (SrxMsg raw v)] /\ r = sresult raw v.
  Proof. destruct srun_abs as (a & S & R & I). eapply reports_x; eauto. Qed.

  Lemma staken_in : forall raw v, In (raw, v) (staken l) ->
    exists l1 l2, l = l1 ++ SlRx (SrxMsg raw v) :: l2.
  Proof.
    intros raw v Hin. apply in_split.
    clear Hrun. induction l as [|e l0 IH]; [contradiction|].
    destruct e as [| | | | | |[]| |]; cbn in Hin; try (right; auto; fail).
    destruct Hin as [E|Hin]; [left; congruence|right; auto].
  Qed.

  (** *** C04 *)
  Lemma s_line_ends : forall raw v, In (raw, v) (staken l) -> sline_end_ok o raw v.
  Proof.
    intros raw v Hin. destruct (staken_in raw v Hin) as (l1 & l2 & E).
    destruct (s_frames _ _ _ _ E) as (F & _ & _).
    assert (G1 : forall M L (dec : bytes -> dec_result M L) acc ls out,
      framed dec (so_crlf_relaxed o) acc raw ls out -> out <> OBareLf ->
      so_crlf_relaxed o = false -> ends_crlf raw).
    { intros M L dec acc ls out H Ho Hr. apply framed_end in H as (q & x & -> & Hx & V & _).
      assert (Hok : line_ok (so_crlf_relaxed o) x) by (destruct V; congruence).
      destruct Hok as [?|?]; [congruence|now apply ends_crlf_app]. }
    assert (G2 : forall M L (dec : bytes -> dec_result M L) acc ls,
      framed dec (so_crlf_relaxed o) acc raw ls OBareLf ->
      so_crlf_relaxed o = false /\ exists q x, raw = q ++ x /\ is_line x /\ ~ ends_crlf x).
    { intros M L dec acc ls H. apply framed_end in H as (q & x & -> & Hx & V & _).
      inversion V as [Hr Hn| | | | |]. split; [exact Hr|]. exists q, x. auto. }
    unfold sframe_limited, sframe, sline_end_ok in *.
    destruct v; try exact I; destruct F as [F _]; destruct (smode l1); try contradiction;
      try (destruct F as [_ F]; try contradiction);
      try (intro; eapply G1; eauto; discriminate); eapply G2; eauto.
  Qed.

  Lemma s_relaxed_no_error : so_crlf_relaxed o = true ->
    forall d, ~ In (SlNext (IError (SerrExpectedCrlfGotLf d))) l.
  Proof.
    intros Hr d Hin. apply in_split in Hin as (l1 & l2 & E).
    destruct (s_reports _ _ _ E eq_refl) as (l0 & raw & v & -> & Ev).
    assert (v = SvBareLf) by (destruct v; try discriminate; reflexivity). subst v.
    rewrite <- app_assoc in E. cbn in E.
    assert (Hin : In (raw, SvBareLf) (staken l)).
    { rewrite E. clear. induction l0 as [|e l0 IH]; [now left|].
      cbn [app staken]. destruct e as [| | | | | |[]| |]; auto. now right. }
    apply s_line_ends in Hin as [Hin _]. congruence.
  Qed.

  (** *** C05 *)
  Lemma s_size : forall raw v, In (raw, v) (staken l) ->
    (N.of_nat (length raw) <= so_max_command_size o)%N.
  Proof.
    intros raw v Hin. destruct (staken_in raw v Hin) as (l1 & l2 & E).
    destruct (s_frames _ _ _ _ E) as (F & _ & _).
    destruct v; cbn in F; try (apply F). destruct F as (_ & F & _). lia.
  Qed.

  Lemma sframe_message : forall m raw ls v r, sframe K o m raw ls v -> smessage K o m (raw ++ r).
  Proof. intros m raw ls v r H. exact (sframe_opt_message K o m raw ls (Some v) r H). Qed.

  Lemma s_too_long : forall l1 raw v l2, l = l1 ++ SlRx (SrxMsg raw v) :: l2 ->
    (v = SvTooLong <->
     ~ smessage K o (smode l1) (firstn (N.to_nat (so_max_command_size o)) (sunread l1))) /\
    (v = SvTooLong ->
     raw = firstn (N.to_nat (so_max_command_size o)) (sunread l1) /\
     N.of_nat (length raw) = so_max_command_size o).
  Proof.
    intros l1 raw v l2 E. destruct (s_frames _ _ _ _ E) as (F & (rest & U) & _).
    assert (T : v = SvTooLong -> N.of_nat (length raw) = so_max_command_size o /\
      raw = firstn (N.to_nat (so_max_command_size o)) (sunread l1)).
    { intros ->. destruct F as (_ & F & _). split; [exact F|].
      rewrite U, <- F, Nnat.Nat2N.id. symmetry. apply firstn_app_exact. }
    split; [split|].
    - intros Ev. destruct (T Ev) as [_ <-]. subst v. apply F.
    - intro Hn. destruct v; try reflexivity; exfalso; apply Hn; destruct F as [F Hl];
        rewrite U, firstn_app, firstn_all2 by lia; eapply sframe_message; eauto.
    - intro Ev. destruct (T Ev). auto.
  Qed.

  (** *** C06, C07 *)
  Lemma s_need_more : forall l1 l2, l = l1 ++ SlNext INeedMore :: l2 ->
    smode l1 = ExIdleAccept \/
    (~ smessage K o (smode l1) (sunread l1) /\
     (N.of_nat (length (sunread l1)) < so_max_command_size o)%N).
  Proof. destruct srun_abs as (a & S & R & I). eapply need_more_x; eauto. Qed.

  Lemma sinputs_app : forall a b, sinputs (a ++ b) = sinputs a ++ sinputs b.
  Proof.
    induction a as [|e a IH]; intro b; [reflexivity|].
    destruct e; cbn; rewrite IH, ?app_assoc; reflexivity.
  Qed.

  Lemma staken_bytes_app : forall a b, staken_bytes (a ++ b) = staken_bytes a ++ staken_bytes b.
  Proof.
    unfold staken_bytes. induction a as [|e a IH]; intro b; [reflexivity|].
    destruct e as [| | | | | |[]| |]; cbn; rewrite ?IH, ?app_assoc; reflexivity.
  Qed.

  Lemma s_memory : forall k, fed_on_demand k l -> forall l1 l2, l = l1 ++ l2 ->
    (N.of_nat (length (sunread l1)) <= so_max_command_size o + N.of_nat k)%N.
  Proof.
    intros k Hf l1. induction l1 as [|e l1 IH] using rev_ind; intros l2 E; [cbn; lia|].
    rewrite <- app_assoc in E. cbn in E. specialize (IH _ E).
    unfold sunread in *. rewrite skipn_length, sinputs_app, staken_bytes_app, !app_length in *.
    destruct e as [| x | | | | | | |]; cbn [sinputs length] in *; try lia.
    destruct (Hf _ _ _ E) as (Hx & l0 & lm & E1 & Hm & Hw). subst l1.
    rewrite <- app_assoc in E. cbn [app] in E. destruct (s_need_more _ _ E) as [H|[_ H]]; [congruence|].
    unfold sunread in H. rewrite skipn_length in H.
    rewrite sinputs_app, staken_bytes_app. cbn [sinputs]. rewrite Hm, !app_length. cbn [length].
    lia.
  Qed.

  Lemma s_need_more_unsent : forall l1 l2, l = l1 ++ SlNext INeedMore :: l2 ->
    (forall m, In m (unsent o gr l1) -> sent_event m <> None) /\
    (unsent o gr l1 = [] \/
     exists l0 b lm m, l1 = l0 ++ SlNext (IOutput b) :: lm /\ sresults lm = [] /\
       nth_error (scheduled o gr l0) (length (souts l0)) = Some m /\ sent_event m = None).
  Proof. destruct srun_abs as (a & S & R & I). eapply need_more_unsent_x; eauto. Qed.

  Lemma s_need_more_settled : forall l1 l2, l = l1 ++ SlNext INeedMore :: l2 ->
    settled l1 = true -> unsent o gr l1 = [].
  Proof.
    intros l1 l2 E Hs. destruct (s_need_more_unsent _ _ E) as (_ & [H|H]); [exact H|].
    destruct H as (l0 & b & lm & m & E1 & Hr & _). exfalso.
    assert (X : forall h2 h1, sresults h2 = [] -> last_result (h1 ++ h2) = last_result h1).
    { induction h2 as [|e h2 IH]; intros h1 H; [now rewrite app_nil_r|].
      replace (h1 ++ e :: h2) with ((h1 ++ [e]) ++ h2) by (now rewrite <- app_assoc).
      rewrite IH, last_result_app by (destruct e; cbn in H; congruence).
      destruct e; auto. discriminate. }
    unfold settled in Hs.
    replace (l0 ++ SlNext (IOutput b) :: lm) with ((l0 ++ [SlNext (IOutput b)]) ++ lm) in E1
      by (now rewrite <- app_assoc).
    rewrite E1, X, last_result_app in Hs by assumption. discriminate.
  Qed.

  Lemma s_next_outputs : forall l1 r0 lm r l3 m ms,
    l = l1 ++ SlNext r0 :: lm ++ SlNext r :: l3 ->
    (forall b, r0 <> IOutput b) -> sresults lm = [] -> staken lm = [] ->
    unsent o gr (l1 ++ SlNext r0 :: lm) = m :: ms ->
    r = IOutput (smsg_bytes K m).
  Proof. destruct srun_abs as (a & S & R & I). eapply next_outputs_x; eauto. Qed.

  (** *** C08 *)
  Lemma s_returns : forall s' rx r, server_next K s = (s', rx, r) -> r <> IFuel /\ r <> INone.
  Proof.
    intros s' rx r E. destruct srun_abs as (a & S & R & I).
    destruct (server_next_sim K o s a s' rx r R E) as (a' & _ & H1 & H2 & _). auto.
  Qed.

  Lemma s_bounded : (0 < so_max_command_size o)%N -> forall n s' l',
    server_run K s (repeat SopNext n) = (Some s', l') ->
    6 * length (server_buf s) + 2 * length (unsent o gr l) + 1 < n ->
    In (SlNext INeedMore) l'.
  Proof.
    intros Hm n s' l' E Hn. destruct srun_abs as (a & S & R & I).
    assert (D : In (SlNext INeedMore) l' \/ ~ In (SlNext INeedMore) l').
    { clear. induction l' as [|e l' IH]; [now right|].
      destruct IH as [H|H]; [left; now right|].
      destruct e as [| | | | | | |r|]; try (right; intros [X|X]; [discriminate|auto]).
      destruct r; try (right; intros [X|X]; [discriminate|auto]). left. now left. }
    destruct D as [D|D]; [exact D|]. exfalso.
    pose proof (snexts_bounded K o Hm n s a s' l' R E D) as B.
    rewrite (server_buf_rel _ _ _ _ R), (unsent_inv K o gr l a I) in Hn.
    unfold swork, swork_send in B. unfold x_buf in *. rewrite app_length in *.
    destruct (ss_current (x_send a)); cbn [opt_list length] in B; lia.
  Qed.

  (** *** C21, C22 *)
  Lemma s_in_order : souts l = map (smsg_bytes K) (firstn (length (souts l)) (scheduled o gr l)) /\
    length (souts l) <= length (scheduled o gr l).
  Proof. destruct srun_abs as (a & S & R & I). eapply in_order_x; eauto. Qed.

  Lemma s_sent_after_output : forall l1 b lm r l3,
    l = l1 ++ SlNext (IOutput b) :: lm ++ SlNext r :: l3 -> sresults lm = [] ->
    exists m, nth_error (scheduled o gr l1) (length (souts l1)) = Some m /\
      b = smsg_bytes K m /\ sent_of r = sent_event m.
  Proof. destruct srun_abs as (a & S & R & I). eapply sent_after_output_x; eauto. Qed.

  Lemma s_sent_before : forall l1 e l2,
    l = l1 ++ SlNext (IEvent e) :: l2 -> is_sent_event e = true ->
    exists l0 lm m, l1 = l0 ++ SlNext (IOutput (smsg_bytes K m)) :: lm /\ sresults lm = [] /\
      nth_error (scheduled o gr l0) (length (souts l0)) = Some m /\ sent_event m = Some e.
  Proof. destruct srun_abs as (a & S & R & I). eapply sent_before_x; eauto. Qed.

  Lemma s_sent_list : exists k, (k = length (souts l) \/ S k = length (souts l)) /\
    filter is_sent_event (sevents l) = sent_events (firstn k (scheduled o gr l)).
  Proof. destruct srun_abs as (a & S & R & I). eapply sent_list_x; eauto. Qed.

  (** *** C23 *)
  Lemma s_literals : forall l1 i l2, l = l1 ++ SlRx (SrxLit i) :: l2 ->
    smode l1 = ExCommand /\ (cl_length i <= so_max_literal_size o)%N /\
    exists p rest, sunread l1 = p ++ rest /\
      opened (dec_command K) (so_crlf_relaxed o) (cmd_accept o) p (slits l1 ++ [i]) (cl_length i) /\
      (N.of_nat (length p) <= so_max_command_size o)%N.
  Proof.
    intros l1 i l2 E. destruct srun_abs as (a & S & R & I).
    destruct (literals_x K o g gr l a S _ _ _ E) as (H1 & H2 & H3).
    split; [exact H1|]. split; [|exact H3].
    unfold cmd_accept in H2. destruct (N.ltb _ _) eqn:Hl; [discriminate|]. lia.
  Qed.

  (** The first message of the queue is output first. *)
  Lemma xsteps_first : forall a l0 a' m q, xsteps K o a l0 a' ->
    ss_current (x_send a) = None -> ss_queue (x_send a) = m :: q ->
    (sresults l0 = [] /\ ss_current (x_send a') = None /\ exists q', ss_queue (x_send a') = m :: q') \/
    (exists lm l3, l0 = lm ++ SlNext (IOutput (smsg_bytes K m)) :: l3 /\ sresults lm = []).
  Proof.
    intros a l0 a' m q H Hc Hq. induction H as [a|a l0 a1 l1 a2 H IH H1].
    - left. eauto.
    - destruct (IH Hc Hq) as [(R0 & C & q' & Q)|(lm & l3 & -> & R0)].
      + assert (NQ : quiet (x_send a1) = None) by (unfold quiet; now rewrite C, Q).
        destruct H1 as [a0 p a2 e H0|a0 m0 q0 Hc0 Hq0| | | | |]; try congruence.
        * left. destruct (xcall_label _ _ _ _ H0) as [X _].
          assert (R1 : sresults (l0 ++ [e]) = []).
          { clear - R0 X. induction l0 as [|y l0 IH]; cbn in *.
            - destruct e; auto. exfalso. eapply X; eauto.
            - destruct y; auto. discriminate. }
          split; [exact R1|].
          destruct p; cbn in H0; try discriminate; try (destruct (x_mode a0));
            injection H0 as <- <-; cbn; rewrite ?C, ?Q; cbn; eauto.
        * right. rewrite Q in Hq0. injection Hq0 as <- <-. exists l0, []. auto.
      + right. exists lm, (l3 ++ l1). rewrite <- app_assoc. auto.
  Qed.

  Lemma first_result : forall lm r l3 lm' r' l3',
    lm ++ SlNext r :: l3 = lm' ++ SlNext r' :: l3' -> sresults lm = [] -> sresults lm' = [] -> r = r'.
  Proof.
    induction lm as [|e lm IH]; intros r l3 [|e' lm'] r' l3' E H H'; cbn in E; injection E as E1 E2.
    - congruence.
    - subst e'. discriminate.
    - subst e. discriminate.
    - subst e'. eapply IH; eauto; destruct e; cbn in *; congruence.
  Qed.

  Lemma s_acknowledged : forall l1 i lm r l3,
    l = l1 ++ SlRx (SrxLit i) :: lm ++ SlNext r :: l3 -> sresults lm = [] ->
    cl_mode i = LSync -> unsent o gr l1 = [] ->
    r = IOutput (smsg_bytes K (SmResponse None (accept_response o i))).
  Proof.
    intros l1 i lm r l3 E Hr Hsy Hu. destruct srun_abs as (a & S & R & I).
    destruct (at_pos K o g gr l a S _ _ _ E) as (l0 & a1 & la & lb & a2 & l4 & S0 & I0 & S1 & S2 & E1 & E2).
    assert (X : la = [] /\ lb = [] /\ ss_current (x_send a2) = None /\
      ss_queue (x_send a2) = [SmResponse None (accept_response o i)]).
    { step_at S1.
      - injection EL as -> <-. split; [reflexivity|]. split; [reflexivity|].
        cbn [x_send]. unfold when_sync. rewrite Hsy. rewrite app_nil_r in E1. subst l1.
        rewrite (unsent_inv K o gr l0 a1 I0) in Hu.
        unfold quiet in Hs. rewrite Hu in Hs.
        destruct (ss_current (x_send a1)) as [[x|[h|] rr]|] eqn:Ec; try discriminate;
          injection Hs as <-; cbn; rewrite ?Ec, ?Hu; auto. }
    destruct X as (-> & -> & C & Q). cbn [app] in E2. subst l4.
    destruct (xsteps_first _ _ _ _ _ S2 C Q) as [(R0 & _)|(lm' & l3' & E3 & R0)].
    - exfalso. clear - R0. induction lm as [|e lm IH]; cbn in R0; [discriminate|].
      destruct e; auto. discriminate.
    - eapply first_result; eauto.
  Qed.

  Lemma s_rejected : forall l1 raw i l2,
    l = l1 ++ SlRx (SrxMsg raw (SvLiteralTooLong i)) :: l2 ->
    smode l1 = ExCommand /\ (so_max_literal_size o < cl_length i)%N /\
    (exists l3, l2 = SlNext (IError (SerrLiteralTooLong raw)) :: l3) /\
    (cl_mode i = LSync -> unsent o gr l1 = [] ->
     forall lm r l3, l2 = SlNext (IError (SerrLiteralTooLong raw)) :: lm ++ SlNext r :: l3 ->
     sresults lm = [] ->
     r = IOutput (smsg_bytes K (SmResponse None (reject_response o i)))).
  Proof.
    intros l1 raw i l2 E. destruct (s_frames _ _ _ _ E) as (F & _ & X).
    destruct F as [F _]. destruct (smode l1) eqn:Em; cbn in F;
      try (exfalso; exact F); try (exfalso; apply F; fail).
    split; [reflexivity|]. split.
    { apply framed_end in F as (q & x & _ & _ & V & _). inversion V; subst.
      match goal with H : cmd_accept o i = None |- _ => unfold cmd_accept in H;
        destruct (N.ltb _ _) eqn:Hl; [lia|discriminate] end. }
    split; [exact X|].
    intros Hsy Hu lm r l3 E2 Hr. subst l2. destruct srun_abs as (a & S & R & I).
    destruct (at_pos K o g gr l a S _ _ _ E) as (l0 & a1 & la & lb & a2 & l4 & S0 & I0 & S1 & S2 & E1 & E2).
    assert (Y : la = [] /\ lb = [SlNext (IError (SerrLiteralTooLong raw))] /\ ss_current (x_send a2) = None /\
      ss_queue (x_send a2) = [SmResponse None (reject_response o i)]).
    { step_at S1.
      - injection EL as -> -> <-. split; [reflexivity|]. split; [reflexivity|].
        cbn [x_send x_start pushed_by]. unfold when_sync. rewrite Hsy. rewrite app_nil_r in E1. subst l1.
        rewrite (unsent_inv K o gr l0 a1 I0) in Hu.
        unfold quiet in Hs. rewrite Hu in Hs.
        destruct (ss_current (x_send a1)) as [[x|[h|] rr]|] eqn:Ec; try discriminate;
          injection Hs as <-; cbn; rewrite ?Ec, ?Hu; auto. }
    destruct Y as (-> & -> & C & Q). cbn [app] in E2. injection E2 as <-.
    destruct (xsteps_first _ _ _ _ _ S2 C Q) as [(R0 & _)|(lm' & l3' & E3 & R0)].
    - exfalso. clear - R0. induction lm as [|e lm IH]; cbn in R0; [discriminate|].
      destruct e; auto. discriminate.
    - eapply first_result; eauto.
  Qed.

  (** *** C24, C25 *)
  Lemma s_idle_waits : forall l1 x l2, l = l1 ++ SlRx x :: l2 -> smode l1 <> ExIdleAccept.
  Proof.
    intros l1 x l2 E Em. destruct x as [raw v|i].
    - destruct (s_frames _ _ _ _ E) as (F & _). rewrite Em in F.
      destruct v; cbn in F; destruct F as [F _]; auto.
    - destruct (s_literals _ _ _ E) as (H & _). congruence.
  Qed.

  Lemma s_idle_done : forall l1 raw v l2, l = l1 ++ SlRx (SrxMsg raw v) :: l2 ->
    smode l1 = ExIdleDone ->
    v <> SvTooLong -> exists out, idledone_frame K o raw [] out /\
      v = match out with OMsg _ => SvIdleDone | OBareLf => SvBareLf | _ => SvMalformed end.
  Proof.
    intros l1 raw v l2 E Em Hv. destruct (s_frames _ _ _ _ E) as (F & _). rewrite Em in F.
    destruct v; cbn in F; try congruence; destruct F as [(_ & F) _]; try contradiction; eauto.
  Qed.

  Lemma s_auth_data : forall l1 raw v l2, l = l1 ++ SlRx (SrxMsg raw v) :: l2 ->
    smode l1 = ExAuthenticateData ->
    v <> SvTooLong -> exists out, authdata_frame K o raw [] out /\
      v = match out with OMsg d => SvAuthData d | OBareLf => SvBareLf | _ => SvMalformed end.
  Proof.
    intros l1 raw v l2 E Em Hv. destruct (s_frames _ _ _ _ E) as (F & _). rewrite Em in F.
    destruct v; cbn in F; try congruence; destruct F as [(_ & F) _]; try contradiction; eauto.
  Qed.

  Lemma s_auth_continue : forall l1 q r l2, l = l1 ++ SlAuthContinue q r :: l2 ->
    call_result (expected_eqb (smode l1) ExAuthenticateData) q r.
  Proof. destruct srun_abs as (a & S & R & I). eapply auth_continue_x; eauto. Qed.

  Lemma s_auth_finish : forall l1 t r l2, l = l1 ++ SlAuthFinish t r :: l2 ->
    call_result (expected_eqb (smode l1) ExAuthenticateData) t r.
  Proof. destruct srun_abs as (a & S & R & I). eapply auth_finish_x; eauto. Qed.

  Lemma s_idle_accept : forall l1 q r l2, l = l1 ++ SlIdleAccept q r :: l2 ->
    call_result (expected_eqb (smode l1) ExIdleAccept) q r.
  Proof. destruct srun_abs as (a & S & R & I). eapply idle_accept_x; eauto. Qed.

  Lemma s_idle_reject : forall l1 t r l2, l = l1 ++ SlIdleReject t r :: l2 ->
    call_result (expected_eqb (smode l1) ExIdleAccept) t r.
  Proof. destruct srun_abs as (a & S & R & I). eapply idle_reject_x; eauto. Qed.

  (** *** C20 *)
  Lemma opened_nil : forall {M L} (dec : bytes -> dec_result M L) rl acc p ls n,
    opened dec rl acc p ls n -> p = [] -> ls = [] /\ n = 0%N.
  Proof.
    intros M L dec rl acc p ls n H E. destruct H as [|p ls n d x i m H Hd Hx]; [auto|].
    exfalso. destruct Hx as (x0 & -> & _). destruct p; [|discriminate].
    destruct d; [|discriminate]. destruct x0; discriminate.
  Qed.

  Lemma s_malformed : forall app raw rest xs ys hh,
    polite app -> settled l = true -> no_internal o gr l -> server_buf s = [] ->
    sbad K o (smode l) raw -> (smode l = ExAuthenticateData -> sbad K o ExCommand raw) ->
    concat xs = raw ++ rest -> concat ys = rest ->
    (exists h, sdrive K (fun h => app (no_malformed h)) s xs [] h /\ no_malformed h = hh) <->
    (exists h, sdrive K (fun h => app (no_malformed h)) s ys [] h /\ no_malformed h = hh).
  Proof.
    intros app raw rest xs ys hh Hp Hs Hn Hb B1 B2 Ex Ey. destruct srun_abs as (a & S & R & I).
    rewrite (server_buf_rel _ _ _ _ R) in Hb. rewrite (si_mode _ _ _ _ _ I) in *.
    assert (E0 : x_lits a = [] /\ x_need a = 0%N).
    { unfold x_buf in Hb. apply app_eq_nil in Hb as [Hb _].
      pose proof (si_wf _ _ _ _ _ I) as (_ & W). destruct (x_mode a).
      - eapply opened_nil; eauto.
      - destruct W as (_ & W1 & W2). auto.
      - destruct W as (_ & W1 & W2). auto.
      - destruct W as (_ & W1 & W2). auto. }
    destruct E0 as [E1 E2].
    eapply (sdrive_bad K o app Hp raw s a rest); eauto.
    - eapply calm_start; eauto.
    - split; assumption.
  Qed.
End Thms.

(** *** C09 *)
Lemma s_no_panic : forall K g o gr ops, sno_trailing K o ->
  exists s l, sran K g o gr ops s l.
Proof.
  intros K g o gr ops T.
  pose proof (server_run_no_panic K o T ops _ _ (srel_new K o g gr)) as H.
  unfold sran. destruct (server_run K (server_new g o gr) ops) as [[s|] l]; cbn in H; [eauto|congruence].
Qed.

(** *** Refused calls *)
Lemma s_refused_auth_continue : forall s q s' q',
  server_authenticate_continue s q = (s', inr q') -> s' = s /\ q' = q.
Proof.
  intros s q s' q' H. unfold server_authenticate_continue in H.
  destruct (s_recv s); try (injection H as <- <-; auto; fail).
  destruct (server_enqueue_continuation_request s q). discriminate.
Qed.

Lemma refused_change : forall A s r e (s' : server) (q : A),
  server_enqueue_and_change s r e <> Val (s', inr q).
Proof.
  intros A s r e s' q H. unfold server_enqueue_and_change in H.
  destruct (server_enqueue_response s r) as [s1 h].
  destruct (sr_change_state (s_recv s1) e); discriminate.
Qed.

Lemma s_refused_auth_finish : forall s t s' t',
  server_authenticate_finish s t = Val (s', inr t') -> s' = s /\ t' = t.
Proof.
  intros s t s' t' H. unfold server_authenticate_finish in H.
  destruct (s_recv s); try (injection H as <- <-; auto; fail). now apply refused_change in H.
Qed.

Lemma s_refused_idle_accept : forall s q s' q',
  server_idle_accept s q = Val (s', inr q') -> s' = s /\ q' = q.
Proof.
  intros s q s' q' H. unfold server_idle_accept in H.
  destruct (s_recv s); try (injection H as <- <-; auto; fail). now apply refused_change in H.
Qed.

Lemma s_refused_idle_reject : forall s t s' t',
  server_idle_reject s t = Val (s', inr t') -> s' = s /\ t' = t.
Proof.
  intros s t s' t' H. unfold server_idle_reject in H.
  destruct (s_recv s); try (injection H as <- <-; auto; fail). now apply refused_change in H.
Qed.
