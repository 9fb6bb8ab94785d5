(** Which command an entry of a client's log concerns: it is the oldest one that is not
    resolved. *)
From Coq Require Import List NArith Bool PeanoNat Lia.
From Verif Require Import Base Types Codec Handle Receive ServerSend ClientSend Client Server
  SpecFraming SpecClient SpecServer ReceiveProofs ClientRecv ServerRecv ClientAbs ServerAbs
  System SystemAbs SpecSystem SpecViews SystemViews.
From Verif Require ClientInv.
Import ListNotations.

Definition is_auth (c : command) : Prop := exists m ir, cbody c = BAuthenticate m ir.
Definition is_idle (c : command) : Prop := cbody c = BIdle.

(** "DONE" was given for the oldest command that is not resolved. *)
Definition closing_step (b : bool) (e : clog) : bool :=
  match e with
  | ClSetDone (Some _) => true
  | ClNext (IEvent e) => if is_terminal e then false else b
  | _ => b
  end.
Definition closing (l : list clog) : bool := fold_left closing_step l false.

Definition concerns (l : list clog) (h : handle) (P : command -> Prop) : Prop :=
  exists c, oldest l = Some (h, c) /\ P c.

Definition fitting (l : list clog) (e : clog) : Prop :=
  match e with
  | ClSetAuth _ (inl h) => due l = true /\ concerns l h is_auth
  | ClSetAuth _ (inr _) => due l = false
  | ClSetDone (Some h) => idles l = true /\ closing l = false /\ concerns l h is_idle
  | ClSetDone None => idles l = false
  | ClNext (IEvent ev) =>
      match ev with
      | CeCommandSent h c => oldest l = Some (h, c) /\ regular c
      | CeCommandRejected h c s => oldest l = Some (h, c) /\ regular c /\
          exists b, s = StTagged (ctag c) b /\ sb_kind b = SkBad
      | CeAuthenticateStarted h => concerns l h is_auth
      | CeAuthenticateContinuationRequestReceived h _ => due l = false /\ concerns l h is_auth
      | CeAuthenticateStatusReceived h ca s =>
          oldest l = Some (h, command_of_authenticate ca) /\ exists b, s = StTagged (ca_tag ca) b
      | CeIdleCommandSent h => concerns l h is_idle
      | CeIdleAccepted h _ => idles l = false /\ closing l = false /\ concerns l h is_idle
      | CeIdleRejected h s => closing l = false /\
          concerns l h (fun c => is_idle c /\ exists b, s = StTagged (ctag c) b)
      | CeIdleDoneSent h => closing l = true /\ concerns l h is_idle
      | _ => True
      end
  | _ => True
  end.
Definition all_fitting (l : list clog) : Prop :=
  forall l1 e l2, l = l1 ++ e :: l2 -> fitting l1 e.

Definition closing_cur (cur : option current_message) : bool :=
  match cur with
  | Some (CmIdle _ _ (IaPushingIdleDone _)) | Some (CmIdle _ _ IaWaitingForIdleDoneSent) => true
  | _ => false
  end.

Lemma closing_app : forall l l1, closing (l ++ l1) = fold_left closing_step l1 (closing l).
Proof. intros. apply fold_left_app. Qed.

Section Fit.
  Variable K : Codecs.
  Variable relaxed : bool.
  Notation cur_of a := (cs_current (a_send a)).
  Notation cmds_of s := (ClientInv.cur_cmd (cs_current s) ++ cs_queue s).

  Definition regular_cur (cur : option current_message) : Prop :=
    match cur with Some (CmCommand _ c _ _) => regular c | _ => True end.

  (** What [next] of the send state reports. *)
  Definition next_fits (s : csend) (r : cs_result) : Prop :=
    match r with
    | CsOk (Some (CvCommand h c)) => hd_error (cmds_of s) = Some (h, c) /\ regular c
    | CsOk (Some (CvAuthenticate h)) => exists c, hd_error (cmds_of s) = Some (h, c) /\ is_auth c
    | CsOk (Some (CvIdle h)) => exists c, hd_error (cmds_of s) = Some (h, c) /\ is_idle c
    | CsOk (Some (CvIdleDone h)) => closing_cur (cs_current s) = true /\
        exists c, hd_error (cmds_of s) = Some (h, c) /\ is_idle c
    | _ => True
    end.
  Definition next_closing (s s' : csend) (r : cs_result) : Prop :=
    match r with
    | CsOk (Some (CvCommand _ _)) | CsOk (Some (CvIdleDone _)) => closing_cur (cs_current s') = false
    | _ => closing_cur (cs_current s') = closing_cur (cs_current s)
    end.

  Lemma next_fit : forall s s' r, cs_next K s = (s', r) -> regular_cur (cs_current s) ->
    next_fits s r /\ next_closing s s' r.
  Proof.
    assert (Go : forall q m s' r, cs_progress q m = (s', r) -> regular_cur (Some m) ->
      next_fits (CSend q (Some m)) r /\ next_closing (CSend q (Some m)) s' r).
    { intros q m s' r H Hr. unfold cs_progress in H.
      destruct m as [h c fs act|h ca act|h t act]; cbn in Hr.
      - destruct act as [acc|lm|lit]; cbn in H.
        + destruct (push_fragments fs) as [[o1 l1] f1]. destruct (opt_bytes acc ++ o1).
          * destruct l1; cbn in H; injection H as <- <-; cbn; auto.
          * injection H as <- <-. cbn. auto.
        + destruct lm; cbn in H; injection H as <- <-; cbn; auto.
        + injection H as <- <-. cbn. auto.
      - assert (A : is_auth (command_of_authenticate ca)) by (destruct ca; cbn; red; cbn; eauto).
        destruct act as [x| | | |x|]; cbn in H; try (destruct x; cbn in H); injection H as <- <-; cbn; eauto.
      - assert (A : is_idle {| ctag := t; cbody := BIdle |}) by reflexivity.
        destruct act as [x| | | |x|]; cbn in H; try (destruct x; cbn in H); injection H as <- <-; cbn; eauto 10. }
    intros s s' r H Hr. unfold cs_next in H. destruct s as [q cur]. cbn [cs_current cs_queue] in *.
    destruct cur as [m|]; [eapply Go; eauto|].
    destruct q as [|[h c] q].
    { injection H as <- <-. cbn. auto. }
    destruct (queued_start K h c) as [m|] eqn:Eq.
    - assert (M : ClientInv.cur_cmd (Some m) = [(h, c)] /\ regular_cur (Some m) /\ closing_cur (Some m) = false).
      { unfold queued_start in Eq. destruct c as [t b]. cbn [cbody ctag] in Eq. destruct b.
        - destruct (single_line _); cbn in Eq; [|discriminate]. injection Eq as <-. cbn. auto.
        - destruct (single_line _); cbn in Eq; [|discriminate]. injection Eq as <-. cbn. auto.
        - injection Eq as <-. cbn. split; [reflexivity|]. split; [red; cbn; eauto|reflexivity]. }
      destruct M as (M1 & M2 & M3). destruct (Go _ _ _ _ H M2) as [G1 G2].
      unfold next_fits, next_closing in *. cbn [cs_current cs_queue] in *. rewrite M1, M3 in *. cbn [app ClientInv.cur_cmd] in *.
      split; [|exact G2]. destruct r as [[[]|]| |]; auto.
    - injection H as <- <-. cbn. auto.
  Qed.

  (** The oldest command. *)
  Lemma conv_oldest : forall a l, ClientInv.conv_inv K a l -> oldest l = hd_error (cmds_of (a_send a)).
  Proof.
    intros a l (dn & E & [Hl _] & _). unfold oldest. rewrite E, <- Hl, nth_error_app2, Nat.sub_diag by lia.
    now destruct (cmds_of (a_send a)).
  Qed.
  Lemma conv_regular : forall a l, ClientInv.conv_inv K a l -> regular_cur (cur_of a).
  Proof.
    intros a l (dn & _ & _ & H). unfold regular_cur. destruct (cur_of a) as [[]|]; auto. exact (proj1 H).
  Qed.

  (** Silent entries do not matter. *)
  Lemma fitting_rx : forall l x e, fitting l e -> fitting (l ++ [ClRx x]) e.
  Proof.
    intros l x e H.
    assert (E1 : oldest (l ++ [ClRx x]) = oldest l).
    { unfold oldest. rewrite ClientInv.enqueued_app, ClientInv.terminals_app. cbn. now rewrite !app_nil_r. }
    assert (E2 : due (l ++ [ClRx x]) = due l) by (rewrite due_app; reflexivity).
    assert (E3 : idles (l ++ [ClRx x]) = idles l) by (rewrite idles_app; reflexivity).
    assert (E4 : closing (l ++ [ClRx x]) = closing l) by (rewrite closing_app; reflexivity).
    unfold fitting, concerns in *.
    destruct e as [| |d0 [h0|]|[h0|]| |[[]| | | | | |]|]; rewrite ?E1, ?E2, ?E3, ?E4; exact H.
  Qed.

  Lemma closing_step_ok : forall a l1 a', astep K relaxed a l1 a' -> regular_cur (cur_of a) ->
    fold_left closing_step l1 (closing_cur (cur_of a)) = closing_cur (cur_of a').
  Proof.
    intros a l1 a' H Hreg.
    destruct H as [a cmd g0 h Hg|a y|a d s r H0|a s r H0|a s H0 H1|a s e H0 H1|a s b H0 H1
      |a H0 H1|a raw rest ls g0 H0 H1 H2|a raw rest ls q s H0 H1 H2 H3 H4
      |a raw rest ls m c' e H0 H1 H2 H3 H4|a raw rest v e H0 H1 H2]; cbn; auto.
    - unfold cs_set_authenticate_data in H0.
      destruct (cur_of a) as [[h c fs act|h ca act|h t act]|] eqn:Em;
        try (injection H0 as <- <-; rewrite Em; auto; fail).
      destruct act; try (injection H0 as <- <-; rewrite Em; auto; fail).
      destruct (single_line (enc_authdata K d)); cbn in H0; [|discriminate].
      injection H0 as <- <-. auto.
    - unfold cs_set_idle_done in H0.
      destruct (cur_of a) as [[h c fs act|h ca act|h t act]|] eqn:Em;
        try (injection H0 as <- <-; rewrite Em; auto; fail).
      destruct act; try (injection H0 as <- <-; rewrite Em; auto; fail).
      destruct (single_line (enc_idledone K)); cbn in H0; [|discriminate].
      injection H0 as <- <-. auto.
    - destruct (next_fit _ _ _ H1 Hreg) as [_ N]. cbn in N. auto.
    - destruct (next_fit _ _ _ H1 Hreg) as [_ N]. destruct e; cbn in *; auto.
    - destruct (next_fit _ _ _ H1 Hreg) as [_ N]. cbn in N. auto.
    - unfold cs_literal_continue in H4.
      destruct (cur_of a) as [[h c fs [| |]|h ca act|h t act]|] eqn:Em; try discriminate.
      injection H4 as <-. auto.
    - destruct m as [st|dd|q]; cbn in H4.
      + unfold cs_maybe_terminate in H4.
        destruct (cur_of a) as [[h c fs act|h ca act|h t act]|] eqn:Em; destruct st as [t0 b|b|cc tt];
          try (injection H4 as <- <-; cbn; rewrite ?Em; auto; fail).
        * destruct (status_kind_is_bad (sb_kind b) && bytes_eqb t0 (ctag c));
            injection H4 as <- <-; cbn; rewrite ?Em; auto.
        * destruct (bytes_eqb t0 (ca_tag ca)); [destruct (sb_kind b)|];
            injection H4 as <- <-; cbn; rewrite ?Em; auto.
        * destruct (bytes_eqb t0 t); injection H4 as <- <-; cbn; rewrite ?Em; auto.
      + injection H4 as <- <-. auto.
      + destruct (cs_literal_continue (a_send a)) as [s2 [|]] eqn:El; [discriminate|].
        assert (s2 = a_send a) as ->.
        { unfold cs_literal_continue in El.
          destruct (cur_of a) as [[h c fs [| |]|h ca act|h t act]|] eqn:Em;
            solve [discriminate | now injection El as <-]. }
        clear El.
        destruct (cs_authenticate_continue (a_send a)) as [s3 [h3|]] eqn:Ea.
        * injection H4 as <- <-. cbn. unfold cs_authenticate_continue in Ea.
          destruct (cur_of a) as [[h c fs act|h ca act|h t act]|] eqn:Em; try discriminate.
          destruct act; try discriminate. injection Ea as <- <-. auto.
        * assert (s3 = a_send a) as ->.
          { unfold cs_authenticate_continue in Ea.
            destruct (cur_of a) as [[h c fs act|h ca act|h t act]|] eqn:Em;
              try (now injection Ea as <-).
            destruct act; solve [discriminate | now injection Ea as <-]. }
          destruct (cs_idle_continue (a_send a)) as [s4 [h4|]] eqn:Ei.
          -- injection H4 as <- <-. cbn. unfold cs_idle_continue in Ei.
             destruct (cur_of a) as [[h c fs act|h ca act|h t act]|] eqn:Em; try discriminate.
             destruct act; try discriminate. injection Ei as <- <-. auto.
          -- injection H4 as <- <-. cbn. unfold cs_idle_continue in Ei.
             destruct (cur_of a) as [[h c fs act|h ca act|h t act]|] eqn:Em;
               try (injection Ei as <-; rewrite ?Em; auto; fail).
             destruct act; solve [discriminate | injection Ei as <-; rewrite ?Em; auto].
  Qed.

  Lemma closing_steps : forall g l a, asteps K relaxed (astate_new g) l a -> closing l = closing_cur (cur_of a).
  Proof.
    intros g l a H. remember (astate_new g) as a0 eqn:E.
    induction H as [a|a l a1 l1 a2 H IH H1]; subst; [auto|].
    rewrite closing_app, (IH eq_refl).
    apply (closing_step_ok _ _ _ H1). eapply conv_regular, ClientInv.asteps_conv; eauto.
  Qed.

  (** Every entry of a step fits. *)
  Lemma fit_step : forall a l l1 a', astep K relaxed a l1 a' ->
    ClientInv.conv_inv K a l -> due l = due_cur (cur_of a) -> idles l = idles_cur (cur_of a) ->
    closing l = closing_cur (cur_of a) ->
    forall la e lb, l1 = la ++ e :: lb -> fitting (l ++ la) e.
  Proof.
    intros a l l1 a' H Hc Ed Ei Ec.
    pose proof (conv_oldest _ _ Hc) as Eo. pose proof (conv_regular _ _ Hc) as Hreg.
    assert (One : forall e1, fitting l e1 -> forall la e lb, [e1] = la ++ e :: lb -> fitting (l ++ la) e).
    { intros e1 F la e lb E. destruct la as [|? [|]]; try discriminate. cbn in E. injection E as <- _.
      now rewrite app_nil_r. }
    assert (Two : forall x e1, fitting l e1 ->
      forall la e lb, [ClRx x; e1] = la ++ e :: lb -> fitting (l ++ la) e).
    { intros x e1 F la e lb E. destruct la as [|? [|? [|]]]; try discriminate.
      - cbn in E. injection E as <- _. exact I.
      - cbn in E. injection E as <- <- _. now apply fitting_rx. }
    destruct H as [a cmd g0 h Hg|a y|a d s r H0|a s r H0|a s H0 H1|a s e H0 H1|a s b H0 H1
      |a H0 H1|a raw rest ls g0 H0 H1 H2|a raw rest ls q s H0 H1 H2 H3 H4
      |a raw rest ls m c' e H0 H1 H2 H3 H4|a raw rest v e H0 H1 H2]; try (apply One; exact I).
    - apply One. unfold cs_set_authenticate_data in H0. cbn. unfold concerns. rewrite Eo, Ed.
      destruct (cur_of a) as [[h c fs act|h ca act|h t act]|] eqn:Em;
        try (injection H0 as <- <-; reflexivity).
      destruct act; try (injection H0 as <- <-; reflexivity).
      destruct (single_line (enc_authdata K d)); cbn in H0; [|discriminate].
      injection H0 as <- <-. split; [reflexivity|]. eexists. split; [reflexivity|].
      destruct ca; red; cbn; eauto.
    - apply One. unfold cs_set_idle_done in H0. cbn. unfold concerns. rewrite Eo, Ei, Ec.
      destruct (cur_of a) as [[h c fs act|h ca act|h t act]|] eqn:Em;
        try (injection H0 as <- <-; reflexivity).
      destruct act; try (injection H0 as <- <-; reflexivity).
      destruct (single_line (enc_idledone K)); cbn in H0; [|discriminate].
      injection H0 as <- <-. split; [reflexivity|]. split; [reflexivity|]. eexists. split; reflexivity.
    - intros la e lb E. now destruct la.
    - apply One. destruct (next_fit _ _ _ H1 Hreg) as [N _]. cbn [fitting]. unfold concerns. rewrite Eo, ?Ec.
      destruct e; exact N.
    - apply Two. exact I.
    - apply Two. pose proof (ClientInv.settled_waiting K _ (H1 H0)) as Hw. unfold ClientInv.waiting in Hw.
      cbn [fitting]. unfold concerns. rewrite Eo, ?Ec, ?Ei, ?Ed.
      destruct m as [st|dd|q]; cbn in H4.
      + unfold cs_maybe_terminate in H4.
        destruct (cur_of a) as [[h c fs act|h ca act|h t act]|] eqn:Em; destruct st as [t0 b|b|cc tt];
          try (injection H4 as <- <-; cbn; auto; fail).
        * destruct (sb_kind b) eqn:Ek; cbn in H4; try (injection H4 as <- <-; exact I).
          destruct (bytes_eqb t0 (ctag c)) eqn:Et; injection H4 as <- <-; cbn; auto.
          apply bytes_eqb_eq in Et as ->. eauto.
        * destruct (bytes_eqb t0 (ca_tag ca)) eqn:Et; [|injection H4 as <- <-; exact I].
          apply bytes_eqb_eq in Et as ->.
          destruct (sb_kind b); injection H4 as <- <-; cbn; eauto.
        * destruct (bytes_eqb t0 t) eqn:Et; injection H4 as <- <-; [|exact I].
          apply bytes_eqb_eq in Et as ->. cbn. split; [destruct act; try contradiction; reflexivity|].
          eexists. split; [reflexivity|]. split; [reflexivity|]. cbn. eauto.
      + injection H4 as <- <-. exact I.
      + destruct (cs_literal_continue (a_send a)) as [s2 [|]] eqn:El; [discriminate|].
        assert (s2 = a_send a) as ->.
        { unfold cs_literal_continue in El.
          destruct (cur_of a) as [[h c fs [| |]|h ca act|h t act]|] eqn:Em;
            solve [discriminate | now injection El as <-]. }
        clear El.
        destruct (cs_authenticate_continue (a_send a)) as [s3 [h3|]] eqn:Ea.
        * injection H4 as <- <-. unfold cs_authenticate_continue in Ea.
          destruct (cur_of a) as [[h c fs act|h ca act|h t act]|] eqn:Em; try discriminate.
          destruct act; try discriminate. injection Ea as <- <-. cbn. split; [reflexivity|].
          eexists. split; [reflexivity|]. destruct ca; red; cbn; eauto.
        * assert (s3 = a_send a) as ->.
          { unfold cs_authenticate_continue in Ea.
            destruct (cur_of a) as [[h c fs act|h ca act|h t act]|] eqn:Em;
              try (now injection Ea as <-).
            destruct act; solve [discriminate | now injection Ea as <-]. }
          destruct (cs_idle_continue (a_send a)) as [s4 [h4|]] eqn:Eii.
          -- injection H4 as <- <-. unfold cs_idle_continue in Eii.
             destruct (cur_of a) as [[h c fs act|h ca act|h t act]|] eqn:Em; try discriminate.
             destruct act; try discriminate. injection Eii as <- <-. cbn.
             split; [reflexivity|]. split; [reflexivity|]. eexists. split; reflexivity.
          -- injection H4 as <- <-. exact I.
    - apply Two. exact I.
  Qed.

  Lemma fit_steps : forall g l a, asteps K relaxed (astate_new g) l a -> all_fitting l.
  Proof.
    intros g l a H. pose proof H as H'. remember (astate_new g) as a0 eqn:E.
    induction H as [a|a l a1 l1 a2 H IH H1]; subst.
    - intros la e lb E. now destruct la.
    - intros la e lb E. apply app_split in E.
      destruct E as [(x & E1)|(x & E1 & E2)].
      + eapply (IH eq_refl H). exact E1.
      + subst la. destruct (views_steps K relaxed g l a1 H) as [V1 V2].
        eapply fit_step; eauto; [eapply ClientInv.asteps_conv; eauto|eapply closing_steps; eauto].
  Qed.
End Fit.
