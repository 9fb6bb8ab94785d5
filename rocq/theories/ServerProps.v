(** Properties of the server as statements about positions in the log of a run. *)
From Coq Require Import List NArith Bool PeanoNat Lia ZifyBool ZifyNat ZifyN.
From Verif Require Import Base Types Codec Handle Receive ServerSend Server SpecFraming
  SpecClient SpecServer ReceiveProofs ClientRecv ServerRecv ServerAbs ServerInv.
Import ListNotations.

Lemma xcall_label : forall a p a' e, xcall a p = Some (a', e) ->
  (forall r, e <> SlNext r) /\ (forall x, e <> SlRx x).
Proof.
  intros a p a' e H. destruct p; cbn in H; try discriminate;
    destruct (x_mode a); try (injection H as _ <-); split; intros; discriminate.
Qed.

(** Takes the step apart that produced a given entry of the log. *)
Ltac step_at H :=
  match type of H with
  | xstep _ _ ?a (?la ++ ?e :: ?lb) ?a' =>
      let lab := fresh "lab" in let EL := fresh "EL" in
      remember (la ++ e :: lb) as lab eqn:EL in H;
      destruct H as [a p a' e0 Hcall|a m0 q0 Hc0 Hq0|a m0 e0 Hc0 He0|a s1 Hs Hcond
        |a s1 w ln rest i0 n0 Hs Hmode Hrest Hfl Hfit Hok Hd Ha
        |a s1 raw0 rest v0 Hs Hbuf Hfr Hfit
        |a s1 raw0 rest Hs Hmode Hno Hbuf Hraw];
      [destruct la as [|? la];
         [injection EL as EL _; exfalso; destruct (xcall_label _ _ _ _ Hcall) as [X1 X2];
          (now apply X1 in EL) || (now apply X2 in EL)
         |destruct la; discriminate EL]|..];
      destruct la as [|? [|? la]]; cbn [app] in EL; try discriminate EL;
      try (destruct la; discriminate EL)
  end.

Section Props.
  Variable K : Codecs.
  Variable o : soptions.
  Variable g0 : hgen.
  Variable gr : greeting.
  Variable l : list slog.
  Variable a : xstate.
  Hypothesis Hsteps : xsteps K o (xnew g0 gr) l a.

  Notation xstep := (xstep K o).
  Notation xsteps := (xsteps K o).
  Notation sinv := (sinv K o gr).

  Lemma inv : sinv l a.
  Proof. eapply sinv_steps; eauto. Qed.

  (** ** C02 *)

  Lemma partition_x : sinputs l = staken_bytes l ++ x_buf a.
  Proof. apply inv. Qed.

  Lemma unread_x : forall l' a', sinv l' a' -> sunread l' = x_buf a'.
  Proof.
    intros l' a' H. unfold sunread. rewrite (si_bytes _ _ _ _ _ H). apply skipn_app_exact.
  Qed.

  (** Every position is reached by a run; the state before the step that made the entry. *)
  Lemma at_pos : forall l1 e l2, l = l1 ++ e :: l2 ->
    exists l0 a1 la lb a2 l3, xsteps (xnew g0 gr) l0 a1 /\ sinv l0 a1 /\
      xstep a1 (la ++ e :: lb) a2 /\ xsteps a2 l3 a /\ l1 = l0 ++ la /\ l2 = lb ++ l3.
  Proof.
    intros l1 e l2 E.
    destruct (xsteps_at K o _ _ _ Hsteps _ _ _ E) as (l0 & a1 & la & lb & a2 & l3 & S1 & S2 & S3 & E1 & E2).
    exists l0, a1, la, lb, a2, l3. split; [exact S1|]. split; [eapply sinv_steps; eauto|].
    auto.
  Qed.

  (** ** C03, C05 *)

  Lemma toolong_message : forall a1 s1 raw rest,
    xwf K o a1 -> quiet (x_send a1) = Some s1 -> x_mode a1 <> ExIdleAccept ->
    no_line (NfLiteral (x_need a1)) (view (Some (so_max_command_size o)) (x_pre a1) (x_rest a1)) ->
    x_buf a1 = raw ++ rest -> N.of_nat (length raw) = so_max_command_size o ->
    ~ smessage K o (x_mode a1) raw.
  Proof.
    intros a1 s1 raw rest (Hlen & Hop) _ Hm Hno Hbuf Hraw.
    assert (Ef : fits (Some (so_max_command_size o)) (length (x_pre a1))) by (cbn; lia).
    assert (E : raw = x_pre a1 ++ view (Some (so_max_command_size o)) (x_pre a1) (x_rest a1)).
    { rewrite <- within_view by exact Ef. fold (x_buf a1). rewrite Hbuf. unfold within.
      destruct (N.leb _ _) eqn:El.
      - rewrite app_length in El. destruct rest; [now rewrite app_nil_r|].
        cbn [length] in El. lia.
      - rewrite <- Hraw, Nnat.Nat2N.id. now rewrite firstn_app_exact. }
    rewrite E. destruct (x_mode a1) eqn:Em; [|destruct Hop as (P & L & N); rewrite P, N in * |congruence|
      destruct Hop as (P & L & N); rewrite P, N in *].
    - eapply opened_no_message; eauto.
    - eapply opened_no_message with (ls := []) (need := 0%N); [constructor|exact Hno].
    - eapply opened_no_message with (ls := []) (need := 0%N); [constructor|exact Hno].
  Qed.

  Lemma frames_x : forall l1 raw v l2, l = l1 ++ SlRx (SrxMsg raw v) :: l2 ->
    sframe_limited K o (smode l1) raw (slits l1) v /\
    (exists rest, sunread l1 = raw ++ rest) /\
    exists l3, l2 = SlNext (sresult raw v) :: l3.
  Proof.
    intros l1 raw v l2 E.
    destruct (at_pos _ _ _ E) as (l0 & a1 & la & lb & a2 & l3 & S0 & I0 & S1 & S2 & -> & ->).
    pose proof (si_mode _ _ _ _ _ I0) as Em. pose proof (si_lits _ _ _ _ _ I0) as Els.
    pose proof (si_wf _ _ _ _ _ I0) as Hwf. pose proof (unread_x _ _ I0) as Eu.
    step_at S1.
    - injection EL as -> -> <-. rewrite app_nil_r, Em, Els, Eu. split; [|split; [eauto|cbn; eauto]].
      unfold sframe_limited. destruct v; auto.
      cbn in Hfr. destruct (x_mode _) in Hfr; try contradiction; destruct Hfr; contradiction.
    - injection EL as -> <- <-. rewrite app_nil_r, Em, Els, Eu. split; [|split; [eauto|cbn; eauto]].
      split; [exact Hmode|]. split; [exact Hraw|]. eapply toolong_message; eauto.
  Qed.

  Lemma reports_x : forall l1 r l2, l = l1 ++ SlNext r :: l2 -> is_report r = true ->
    exists l0 raw v, l1 = l0 ++ [SlRx (SrxMsg raw v)] /\ r = sresult raw v.
  Proof.
    intros l1 r l2 E Hr.
    destruct (at_pos _ _ _ E) as (l0 & a1 & la & lb & a2 & l3 & S0 & I0 & S1 & S2 & -> & ->).
    step_at S1.
    - injection EL as <- <-. discriminate.
    - injection EL as <- <-. cbn in Hr. destruct m0 as [g|[h|] rr]; try discriminate;
        injection He0 as <-; discriminate.
    - injection EL as <- <-. discriminate.
    - injection EL as <- <- <-. eauto.
    - injection EL as <- <- <-. exists l0, raw0, SvTooLong. auto.
  Qed.

  (** Accepted literals. *)
  Lemma literals_x : forall l1 i l2, l = l1 ++ SlRx (SrxLit i) :: l2 ->
    smode l1 = ExCommand /\ cmd_accept o i = Some (cl_length i) /\
    exists p rest, sunread l1 = p ++ rest /\
      opened (dec_command K) (so_crlf_relaxed o) (cmd_accept o) p (slits l1 ++ [i]) (cl_length i) /\
      (N.of_nat (length p) <= so_max_command_size o)%N.
  Proof.
    intros l1 i l2 E.
    destruct (at_pos _ _ _ E) as (l0 & a1 & la & lb & a2 & l3 & S0 & I0 & S1 & S2 & -> & ->).
    pose proof (si_mode _ _ _ _ _ I0) as Em. pose proof (si_lits _ _ _ _ _ I0) as Els.
    pose proof (si_wf _ _ _ _ _ I0) as Hwf. pose proof (unread_x _ _ I0) as Eu.
    step_at S1. injection EL as -> <-. rewrite app_nil_r, Em, Els, Eu.
    assert (n0 = cl_length i).
    { unfold cmd_accept in Ha. destruct (N.ltb _ _); [discriminate|]. now injection Ha as <-. }
    subst n0. split; [exact Hmode|]. split; [exact Ha|].
    match type of Hrest with x_rest ?b = _ => exists (x_pre b ++ w), rest end.
    split; [unfold x_buf; rewrite Hrest; now rewrite app_assoc|]. split; [|exact Hfit].
    eapply opened_line; eauto. destruct Hwf as (_ & Hop). rewrite Hmode in Hop. exact Hop.
  Qed.

  (** ** C06, C07 *)

  Lemma need_more_x : forall l1 l2, l = l1 ++ SlNext INeedMore :: l2 ->
    smode l1 = ExIdleAccept \/
    (~ smessage K o (smode l1) (sunread l1) /\
     (N.of_nat (length (sunread l1)) < so_max_command_size o)%N).
  Proof.
    intros l1 l2 E.
    destruct (at_pos _ _ _ E) as (l0 & a1 & la & lb & a2 & l3 & S0 & I0 & S1 & S2 & -> & ->).
    pose proof (si_mode _ _ _ _ _ I0) as Em.
    pose proof (si_wf _ _ _ _ _ I0) as (_ & Hop). pose proof (unread_x _ _ I0) as Eu.
    step_at S1.
    - rewrite app_nil_r, Em, Eu. destruct Hcond as [Hm|(Hno & Hlt)]; [left; exact Hm|].
      destruct (x_mode a1) eqn:Hm; try (left; reflexivity); right; split; try exact Hlt; unfold x_buf.
      + eapply opened_no_message; eauto.
      + destruct Hop as (P & L & N). rewrite P, N in *.
        eapply opened_no_message with (ls := []) (need := 0%N); [constructor|exact Hno].
      + destruct Hop as (P & L & N). rewrite P, N in *.
        eapply opened_no_message with (ls := []) (need := 0%N); [constructor|exact Hno].
    - injection EL as _ EL _. destruct v0; discriminate.
  Qed.

  Lemma unsent_inv : forall l' a', sinv l' a' -> unsent o gr l' = ss_queue (x_send a').
  Proof.
    intros l' a' I. destruct (si_queue _ _ _ _ _ I) as (dn & D1 & D2 & _).
    unfold unsent. rewrite D1, D2, map_length. unfold pending. rewrite app_assoc.
    apply skipn_app_exact.
  Qed.

  (** When [next] asks for input, a message is unsent only if it waits behind an internal
      message that was output last. *)
  Lemma need_more_unsent_x : forall l1 l2, l = l1 ++ SlNext INeedMore :: l2 ->
    (forall m, In m (unsent o gr l1) -> sent_event m <> None) /\
    (unsent o gr l1 = [] \/
     exists l0 b lm m, l1 = l0 ++ SlNext (IOutput b) :: lm /\ sresults lm = [] /\
       nth_error (scheduled o gr l0) (length (souts l0)) = Some m /\ sent_event m = None).
  Proof.
    intros l1 l2 E.
    destruct (at_pos _ _ _ E) as (l0 & a1 & la & lb & a2 & l3 & S0 & I0 & S1 & S2 & -> & ->).
    step_at S1.
    - rewrite app_nil_r. rewrite (unsent_inv _ _ I0).
      destruct (quiet_inv _ _ Hs) as (Q1 & Q2 & c & Q3 & Q4 & Q5 & Q6).
      specialize (Q6 (si_one _ _ _ _ _ I0)). rewrite Q2 in Q6. split.
      + intros m Hin Hm. unfold count_internal in Q6.
        assert (X : In m (filter internal (ss_queue (x_send a1)))).
        { apply filter_In. split; [exact Hin|]. destruct m as [g|[h|] rr]; try discriminate.
          reflexivity. }
        destruct (filter internal _); [destruct X|discriminate].
      + destruct c as [m|]; [|left; auto]. right.
        pose proof (si_last _ _ _ _ _ I0) as Hl. rewrite Q3 in Hl.
        destruct Hl as (l1' & lm & -> & H1 & H2). exists l1', (smsg_bytes K m), lm, m.
        repeat split; auto. pose proof (quiet_internal _ _ Hs m Q3) as Hi.
        destruct m as [g|[h|] rr]; try discriminate. reflexivity.
    - injection EL as _ EL _. destruct v0; discriminate.
  Qed.

  (** After any result other than an output, the next call of [next] outputs the first
      unsent message. *)
  Lemma next_outputs_x : forall l1 r0 lm r l3 m ms,
    l = l1 ++ SlNext r0 :: lm ++ SlNext r :: l3 ->
    (forall b, r0 <> IOutput b) -> sresults lm = [] -> staken lm = [] ->
    unsent o gr (l1 ++ SlNext r0 :: lm) = m :: ms ->
    r = IOutput (smsg_bytes K m).
  Proof.
    intros l1 r0 lm r l3 m ms E Hr0 Hlm Htk Hun.
    replace (l1 ++ SlNext r0 :: lm ++ SlNext r :: l3)
      with ((l1 ++ SlNext r0 :: lm) ++ SlNext r :: l3) in E by (now rewrite <- app_assoc).
    destruct (at_pos _ _ _ E) as (l0 & a1 & la & lb & a2 & l4 & S0 & I0 & S1 & S2 & E1 & ->).
    assert (Hcur : la = [] -> ss_current (x_send a1) = None /\ ss_queue (x_send a1) = m :: ms).
    { intros ->. rewrite app_nil_r in E1. subst l0. split.
      - pose proof (si_last _ _ _ _ _ I0) as Hl.
        destruct (ss_current (x_send a1)) as [m1|]; [exfalso|reflexivity].
        destruct Hl as (l1' & lm' & EE & H1 & _).
        destruct (last_unique _ _ _ _ _ _ EE Hlm H1) as (_ & X & _). now apply (Hr0 _ X).
      - now rewrite <- (unsent_inv _ _ I0). }
    step_at S1.
    - injection EL as <- <-. destruct (Hcur eq_refl) as [_ X]. rewrite X in Hq0.
      injection Hq0 as <- _. reflexivity.
    - destruct (Hcur eq_refl) as [X _]. congruence.
    - destruct (Hcur eq_refl) as [X Y]. unfold quiet in Hs. rewrite X, Y in Hs. discriminate.
    - exfalso. injection EL as <- _ _.
      assert (X : staken (l1 ++ SlNext r0 :: lm) = staken (l0 ++ [SlRx (SrxMsg raw0 v0)]))
        by (now rewrite E1).
      destruct (app_prefix_cases _ _ _ _ E1) as [(e & Ea & Eb)|(e & Ea & Eb)].
      + destruct e as [|e0 e]; simpl in Eb.
        * discriminate.
        * injection Eb as _ Eb. subst lm. rewrite staken_app in Htk. cbn in Htk.
          destruct (staken e); discriminate.
      + destruct e as [|e0 [|e1 e]]; simpl in Eb; discriminate.
    - exfalso. injection EL as <- _ _.
      destruct (app_prefix_cases _ _ _ _ E1) as [(e & Ea & Eb)|(e & Ea & Eb)].
      + destruct e as [|e0 e]; simpl in Eb.
        * discriminate.
        * injection Eb as _ Eb. subst lm. rewrite staken_app in Htk. cbn in Htk.
          destruct (staken e); discriminate.
      + destruct e as [|e0 [|e1 e]]; simpl in Eb; discriminate.
  Qed.

  (** ** C21, C22 *)

  Lemma in_order_x : souts l = map (smsg_bytes K) (firstn (length (souts l)) (scheduled o gr l)) /\
    length (souts l) <= length (scheduled o gr l).
  Proof.
    destruct (si_queue _ _ _ _ _ inv) as (dn & D1 & D2 & _).
    unfold pending in D1. rewrite app_assoc in D1. split.
    - rewrite D1. rewrite D2 at 2. rewrite map_length, firstn_app_exact. exact D2.
    - rewrite D1, D2, map_length, !app_length. lia.
  Qed.

  Lemma output_x : forall l1 b l2, l = l1 ++ SlNext (IOutput b) :: l2 ->
    exists m, nth_error (scheduled o gr l1) (length (souts l1)) = Some m /\ b = smsg_bytes K m.
  Proof.
    intros l1 b l2 E.
    destruct (at_pos _ _ _ E) as (l0 & a1 & la & lb & a2 & l3 & S0 & I0 & S1 & S2 & -> & ->).
    step_at S1.
    - injection EL as <- _. rewrite app_nil_r. exists m0. split; [|reflexivity].
      destruct (si_queue _ _ _ _ _ I0) as (dn & D1 & D2 & _).
      rewrite D1, D2, map_length. unfold pending. rewrite Hc0, Hq0. cbn [opt_list app].
      rewrite app_nil_r, nth_error_app2 by lia. now rewrite Nat.sub_diag.
    - injection EL as _ EL _. destruct v0; discriminate.
  Qed.

  Lemma sent_after_output_x : forall l1 b lm r l3,
    l = l1 ++ SlNext (IOutput b) :: lm ++ SlNext r :: l3 -> sresults lm = [] ->
    exists m, nth_error (scheduled o gr l1) (length (souts l1)) = Some m /\
      b = smsg_bytes K m /\ sent_of r = sent_event m.
  Proof.
    intros l1 b lm r l3 E Hlm.
    destruct (output_x _ _ _ E) as (m & Hm & Hb). exists m. split; [exact Hm|]. split; [exact Hb|].
    replace (l1 ++ SlNext (IOutput b) :: lm ++ SlNext r :: l3)
      with ((l1 ++ SlNext (IOutput b) :: lm) ++ SlNext r :: l3) in E by (now rewrite <- app_assoc).
    destruct (at_pos _ _ _ E) as (l0 & a1 & la & lb & a2 & l4 & S0 & I0 & S1 & S2 & E1 & ->).
    (* entries of the step before the result *)
    assert (Hla : sresults la = [] -> exists lm0, l0 = l1 ++ SlNext (IOutput b) :: lm0 /\ sresults lm0 = []).
    { intro X. symmetry in E1. eapply last_app in E1; eauto. }
    assert (Hcur : sresults la = [] ->
      (ss_current (x_send a1) = Some m) \/
      (ss_current (x_send a1) = None /\ internal m = true)).
    { intro X. destruct (Hla X) as (lm0 & E0 & H0).
      pose proof (si_last _ _ _ _ _ I0) as Hl.
      destruct (ss_current (x_send a1)) as [m1|].
      - left. destruct Hl as (l1' & lm' & EE & H1 & H2). rewrite E0 in EE.
        destruct (last_unique _ _ _ _ _ _ EE H0 H1) as (<- & _ & _). congruence.
      - right. split; [reflexivity|]. destruct (Hl _ _ _ E0 H0) as (m2 & H2 & H3). congruence. }
    assert (Hint : internal m = true -> sent_event m = None)
      by (destruct m as [g|[h|] rr]; try discriminate; reflexivity).
    assert (Hquiet : forall s1, quiet (x_send a1) = Some s1 -> sresults la = [] -> sent_event m = None).
    { intros s1 Hq X. destruct (Hcur X) as [Hc|[_ Hc]]; apply Hint; [|exact Hc].
      eapply quiet_internal; eauto. }
    step_at S1.
    - injection EL as <- _. destruct (Hcur eq_refl) as [X|[_ X]]; [congruence|].
      rewrite (Hint X). reflexivity.
    - injection EL as <- _. destruct (Hcur eq_refl) as [X|[X _]]; [|congruence].
      assert (m = m0) by congruence. subst m0.
      destruct m as [g|[h|] rr]; try discriminate; injection He0 as <-; reflexivity.
    - injection EL as <- _. rewrite (Hquiet _ Hs eq_refl). reflexivity.
    - injection EL as <- <- _. rewrite (Hquiet _ Hs eq_refl).
      destruct v0; try reflexivity. cbn. unfold command_event. destruct (cbody c); reflexivity.
    - injection EL as <- <- _. rewrite (Hquiet _ Hs eq_refl). reflexivity.
  Qed.

  Lemma sent_before_x : forall l1 e l2,
    l = l1 ++ SlNext (IEvent e) :: l2 -> is_sent_event e = true ->
    exists l0 lm m, l1 = l0 ++ SlNext (IOutput (smsg_bytes K m)) :: lm /\ sresults lm = [] /\
      nth_error (scheduled o gr l0) (length (souts l0)) = Some m /\ sent_event m = Some e.
  Proof.
    intros l1 e l2 E He.
    destruct (at_pos _ _ _ E) as (l0 & a1 & la & lb & a2 & l3 & S0 & I0 & S1 & S2 & -> & ->).
    step_at S1.
    - injection EL as <- _. rewrite app_nil_r.
      pose proof (si_last _ _ _ _ _ I0) as Hl. rewrite Hc0 in Hl.
      destruct Hl as (l1' & lm & -> & H1 & H2). exists l1', lm, m0. auto.
    - exfalso. injection EL as _ EL _. destruct v0; try discriminate; injection EL as <-;
        try discriminate. unfold command_event in He. destruct (cbody c); discriminate.
  Qed.

  Lemma sent_list_x : exists k, (k = length (souts l) \/ S k = length (souts l)) /\
    filter is_sent_event (sevents l) = sent_events (firstn k (scheduled o gr l)).
  Proof.
    destruct (si_queue _ _ _ _ _ inv) as (dn & D1 & D2 & D3).
    exists (length dn). rewrite D1, D2, map_length, app_length. rewrite firstn_app_exact.
    split; [|exact D3]. destruct (ss_current (x_send a)); cbn; [right|left]; lia.
  Qed.

  (** ** C24, C25: calls *)

  Ltac call_at E e :=
    let l0 := fresh "l0" in let a1 := fresh "a1" in let la := fresh "la" in
    let lb := fresh "lb" in let a2 := fresh "a2" in let l3 := fresh "l3" in
    let S0 := fresh "S0" in let I0 := fresh "I0" in let S1 := fresh "S1" in
    let S2 := fresh "S2" in let E1 := fresh "E1" in let E2 := fresh "E2" in
    destruct (at_pos _ _ _ E) as (l0 & a1 & la & lb & a2 & l3 & S0 & I0 & S1 & S2 & E1 & E2);
    let Em := fresh "Em" in
    pose proof (si_mode _ _ _ _ _ I0) as Em;
    let lab := fresh "lab" in let EL := fresh "EL" in
    remember (la ++ e :: lb) as lab eqn:EL in S1;
    destruct S1 as [a1 p a2 e0 H| | | | | |]; destruct la as [|? [|? la]]; cbn [app] in EL;
      try discriminate EL; try (destruct la; discriminate EL);
    injection EL as -> <-; rewrite E1, app_nil_r, Em;
    destruct p; cbn in H; try discriminate; destruct (x_mode a1); try discriminate;
      injection H; intros; subst; cbn; auto.

  Lemma auth_continue_x : forall l1 q r l2, l = l1 ++ SlAuthContinue q r :: l2 ->
    call_result (expected_eqb (smode l1) ExAuthenticateData) q r.
  Proof. intros l1 q r l2 E. call_at E (SlAuthContinue q r). Qed.

  Lemma auth_finish_x : forall l1 t r l2, l = l1 ++ SlAuthFinish t r :: l2 ->
    call_result (expected_eqb (smode l1) ExAuthenticateData) t r.
  Proof. intros l1 t r l2 E. call_at E (SlAuthFinish t r). Qed.

  Lemma idle_accept_x : forall l1 q r l2, l = l1 ++ SlIdleAccept q r :: l2 ->
    call_result (expected_eqb (smode l1) ExIdleAccept) q r.
  Proof. intros l1 q r l2 E. call_at E (SlIdleAccept q r). Qed.

  Lemma idle_reject_x : forall l1 t r l2, l = l1 ++ SlIdleReject t r :: l2 ->
    call_result (expected_eqb (smode l1) ExIdleAccept) t r.
  Proof. intros l1 t r l2 E. call_at E (SlIdleReject t r). Qed.
End Props.
