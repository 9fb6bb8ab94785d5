(** The transition system of the server is deterministic. For an application that does not
    put responses behind internal ones, the chunking of the input does not matter. *)
From Coq Require Import List NArith Bool PeanoNat Lia ZifyBool ZifyNat ZifyN.
From Verif Require Import Base Types Codec Handle Receive ServerSend Server SpecFraming
  SpecClient SpecServer SpecDrive ReceiveProofs ClientRecv ServerRecv ServerAbs ServerInv
  ServerProps ServerLive.
Import ListNotations.

Definition x_add (a : xstate) (x : bytes) : xstate :=
  XState (x_gen a) (x_send a) (x_mode a) (x_pre a) (x_lits a) (x_need a) (x_rest a ++ x).

Lemma x_add_nil : forall a, x_add a [] = a.
Proof. intros []. unfold x_add. cbn. now rewrite app_nil_r. Qed.

Lemma x_add_add : forall a x y, x_add (x_add a x) y = x_add a (x ++ y).
Proof. intros []; intros. unfold x_add. cbn. now rewrite app_assoc. Qed.

Lemma x_buf_add : forall a x, x_buf (x_add a x) = x_buf a ++ x.
Proof. intros. unfold x_buf, x_add. cbn. now rewrite app_assoc. Qed.

(** Labels of steps made by [next]. *)
Definition snext_label (l : list slog) : Prop :=
  (exists g r, l = map SlRx g ++ [SlNext r]) \/ (exists i, l = [SlRx (SrxLit i)]).

Lemma call_not_next : forall a p a' e, xcall a p = Some (a', e) -> ~ snext_label [e].
Proof.
  intros a p a' e H. destruct (xcall_label _ _ _ _ H) as [H1 H2].
  intros [(g & r & E)|(i & E)].
  - destruct g as [|x [|y g]]; cbn in E; try discriminate. injection E as E. now apply H1 in E.
  - injection E as E. now apply H2 in E.
Qed.

Section Det.
  Variable K : Codecs.
  Variable o : soptions.

  Notation mx := (Some (so_max_command_size o)).
  Notation relaxed := (so_crlf_relaxed o).
  Notation xstep := (xstep K o).
  Notation xsteps := (xsteps K o).
  Notation xnext := (xnext K o).
  Notation srel := (srel K o).
  Notation xwf := (xwf K o).
  Notation xtrailing := (xtrailing K o).

  Lemma xwf_add : forall a x, xwf a -> xwf (x_add a x).
  Proof. intros a x H. exact H. Qed.

  (** *** More input *)

  Lemma toolong_view : forall a x raw rest,
    xwf a -> x_buf a = raw ++ rest -> N.of_nat (length raw) = so_max_command_size o ->
    view mx (x_pre a) (x_rest a ++ x) = view mx (x_pre a) (x_rest a).
  Proof.
    intros a x raw rest (Hlen & _) Hb Hr.
    assert (Hf : fits mx (length (x_pre a))) by (cbn; lia).
    assert (W : forall y, within mx ((raw ++ rest) ++ y) = raw).
    { intro y. unfold within. destruct (N.leb _ _) eqn:E.
      - rewrite !app_length in E. destruct rest; [|cbn in E; lia]. destruct y; [|cbn in E; lia].
        now rewrite !app_nil_r.
      - rewrite <- Hr, Nnat.Nat2N.id, <- app_assoc. apply firstn_app_exact. }
    apply (app_inv_head (x_pre a)). rewrite <- !within_view by exact Hf.
    rewrite app_assoc. fold (x_buf a). rewrite Hb. rewrite W.
    pose proof (W []) as W0. rewrite app_nil_r in W0. now rewrite W0.
  Qed.

  Lemma xstep_add : forall a l a' x, xwf a -> snext_label l -> xstep a l a' ->
    l <> [SlNext INeedMore] -> xstep (x_add a x) l (x_add a' x).
  Proof.
    intros a l a' x Hwf Hl H Hn.
    destruct H as [a p a' e H|a m q Hcu Hqu|a m e Hcu He|a s1 Hs Hcond
      |a s1 w ln rest i n Hs Hmode Hrest Hfl Hfit Hok Hd Ha
      |a s1 raw rest v Hs Hbuf Hfr Hfit
      |a s1 raw rest Hs Hmode Hno Hbuf Hraw].
    - exfalso; exact (call_not_next _ _ _ _ H ltac:(eassumption)).
    - exact (x_out K o (x_add a x) m q Hcu Hqu).
    - exact (x_sent K o (x_add a x) m e Hcu He).
    - congruence.
    - apply (x_lit K o (x_add a x) s1 w ln (rest ++ x)); auto.
      cbn. now rewrite Hrest, app_assoc.
    - apply (x_msg K o (x_add a x) s1 raw (rest ++ x)); auto.
      rewrite x_buf_add, Hbuf. now rewrite app_assoc.
    - apply (x_toolong K o (x_add a x) s1 raw (rest ++ x)); auto.
      + cbn [x_add x_need x_pre x_rest]. erewrite toolong_view; eauto.
      + rewrite x_buf_add, Hbuf. now rewrite app_assoc.
  Qed.

  Lemma xtrailing_add : forall a x, xtrailing a -> xtrailing (x_add a x).
  Proof.
    intros a x (s1 & raw & rest & Hq & Hb & Hl & H). exists s1, raw, (rest ++ x).
    rewrite x_buf_add, Hb, app_assoc. auto.
  Qed.

  Lemma lab_last : forall g r, snext_label (map SlRx g ++ [SlNext r]).
  Proof. left. eauto. Qed.
  Lemma lab_lit : forall i, snext_label [SlRx (SrxLit i)].
  Proof. right. eauto. Qed.
  Hint Resolve lab_last lab_lit : core.

  Lemma lab_need : forall g r, r <> INeedMore -> map SlRx g ++ [SlNext r] <> [SlNext INeedMore].
  Proof. intros [|x [|y g]] r H; cbn; congruence. Qed.

  Lemma xnext_add : forall a g r a' x, xwf a -> xnext a g r a' -> r <> INeedMore ->
    xnext (x_add a x) g r (x_add a' x).
  Proof.
    intros a g r a' x Hwf H Hn.
    induction H as [a g r a' H|a i a1 g r a' H H2 IH|a a' H].
    - apply xn_last. apply xstep_add; auto. now apply lab_need.
    - eapply xn_lit; [|apply IH; auto; eapply xstep_wf; eauto].
      apply xstep_add; auto. discriminate.
    - apply xn_stuck. now apply xtrailing_add.
  Qed.

  (** *** Determinism *)

  (** A frame with its verdict, or with bytes left over by the decoder. *)
  Definition sframe_opt (m : expected) (raw : bytes) (ls : list cmd_lit) (v : option sverdict) : Prop :=
    match v with
    | Some v => sframe K o m raw ls v
    | None =>
        match m with
        | ExCommand => exists x, command_frame K o raw ls (OTrailing x)
        | ExAuthenticateData => exists x, authdata_frame K o raw [] (OTrailing x)
        | ExIdleDone => exists x, idledone_frame K o raw [] (OTrailing x)
        | ExIdleAccept => False
        end
    end.

  Lemma sframe_opt_det : forall m raw1 ls1 v1 raw2 ls2 v2 r1 r2,
    sframe_opt m raw1 ls1 v1 -> sframe_opt m raw2 ls2 v2 -> raw1 ++ r1 = raw2 ++ r2 ->
    raw1 = raw2 /\ v1 = v2.
  Proof.
    intros m raw1 ls1 v1 raw2 ls2 v2 r1 r2 H1 H2 E.
    destruct m, v1 as [v1|], v2 as [v2|]; cbn in H1, H2; try contradiction;
      try (destruct v1); try (destruct v2); try contradiction;
      repeat match goal with
      | H : _ /\ _ |- _ => destruct H
      | H : exists _, _ |- _ => destruct H
      | H : False |- _ => destruct H
      end;
      match goal with
      | H : _ raw1 _ _, H' : _ raw2 _ _ |- _ =>
          destruct (scan_det _ _ _ _ _ _ _ H _ _ _ _ _ H' E) as (? & ? & EO)
      end; try discriminate EO; try (injection EO as ->); auto.
  Qed.

  Lemma sframe_opt_message : forall m raw ls v r, sframe_opt m raw ls v -> smessage K o m (raw ++ r).
  Proof.
    intros m raw ls v r H.
    destruct m, v as [v|]; cbn in H; try contradiction; try (destruct v); try contradiction;
      repeat match goal with
      | H : _ /\ _ |- _ => destruct H
      | H : exists _, _ |- _ => destruct H
      | H : False |- _ => destruct H
      end; cbn; do 4 eexists; eauto.
  Qed.

  (** The state after quiet sending sees a frame. *)
  Definition xframe (a : xstate) (v : option sverdict) (raw rest : bytes) : Prop :=
    x_buf a = raw ++ rest /\ sframe_opt (x_mode a) raw (x_lits a) v /\
    (N.of_nat (length raw) <= so_max_command_size o)%N.

  Lemma frame_need_more : forall a v raw rest, xwf a -> xframe a v raw rest ->
    ~ (x_mode a = ExIdleAccept \/ (no_line (NfLiteral (x_need a)) (x_rest a) /\
       (N.of_nat (length (x_buf a)) < so_max_command_size o)%N)).
  Proof.
    intros a v raw rest (_ & Hop) (Hb & Hf & _) Hc.
    pose proof (sframe_opt_message _ _ _ _ rest Hf) as Hm. rewrite <- Hb in Hm.
    destruct Hc as [Hc|(Hno & _)]; [rewrite Hc in Hm; exact Hm|].
    unfold x_buf in Hm.
    destruct (x_mode a) eqn:Em; cbn in Hm; try contradiction;
      try (destruct Hop as (P & L & N); rewrite P, N in *).
    - eapply opened_no_message; eauto.
    - eapply opened_no_message with (ls := []) (need := 0%N); [constructor|exact Hno|exact Hm].
    - eapply opened_no_message with (ls := []) (need := 0%N); [constructor|exact Hno|exact Hm].
  Qed.

  Lemma frame_lit : forall a v raw rest w l r i n, xwf a -> xframe a v raw rest ->
    x_mode a = ExCommand -> x_rest a = w ++ r -> frag_line (NfLiteral (x_need a)) w l ->
    line_ok relaxed l -> dec_command K (x_pre a ++ w) = DecLit i -> cmd_accept o i = Some n ->
    False.
  Proof.
    intros a v raw rest w l r i n (_ & Hop) (Hb & Hf & _) Em Er Hfl Hok Hd Ha.
    rewrite Em in *.
    assert (X : forall out, command_frame K o raw (x_lits a) out -> False).
    { intros out Hfr.
      destruct (opened_continues _ _ _ _ _ _ _ _ _ rest (x_rest a) Hop Hfr) as (w2 & ls2 & E1 & E2 & Hs).
      { unfold x_buf in Hb. auto. }
      assert (ls2 = []).
      { rewrite <- (app_nil_r (x_lits a)) in E2 at 1. now apply app_inv_head in E2. }
      subst ls2. unfold x_buf in Hb. rewrite E1, Er, <- app_assoc in Hb.
      apply app_inv_head in Hb. symmetry in Hb.
      destruct (scan_from_lit_inv _ _ _ _ _ _ _ _ _ _ _ _ _ _ Hfl Hok Hd Ha Hs Hb)
        as (w3 & ls3 & _ & E & _). discriminate. }
    destruct v as [v|]; cbn in Hf; [destruct v; try contradiction|destruct Hf as [x Hf]];
      eapply X; eauto.
  Qed.

  Lemma frame_toolong : forall a v raw rest raw2 rest2, xwf a -> xframe a v raw rest ->
    x_mode a <> ExIdleAccept ->
    no_line (NfLiteral (x_need a)) (view mx (x_pre a) (x_rest a)) ->
    x_buf a = raw2 ++ rest2 -> N.of_nat (length raw2) = so_max_command_size o -> False.
  Proof.
    intros a v raw rest raw2 rest2 Hwf (Hb & Hf & Hl) Hm Hno Hb2 Hr2.
    assert (quiet (SSend [] None) = Some (SSend [] None)) as Hq by reflexivity.
    refine (toolong_message K o (x_set_send a (SSend [] None)) _ raw2 rest2 Hwf Hq Hm Hno Hb2 Hr2 _).
    cbn [x_set_send x_mode].
    rewrite Hb in Hb2. destruct (app_prefix_cases _ _ _ _ Hb2) as [(e & E1 & E2)|(e & E1 & E2)].
    - rewrite E1. eapply sframe_opt_message; eauto.
    - assert (e = []).
      { rewrite E1, app_length in Hl. destruct e; [reflexivity|]. cbn in Hl. lia. }
      subst e. rewrite app_nil_r in E1. subst raw2.
      rewrite <- (app_nil_r raw). eapply sframe_opt_message; eauto.
  Qed.

  Lemma lit_toolong : forall a w l r raw rest, xwf a ->
    x_rest a = w ++ r -> frag_line (NfLiteral (x_need a)) w l ->
    (N.of_nat (length (x_pre a ++ w)) <= so_max_command_size o)%N ->
    no_line (NfLiteral (x_need a)) (view mx (x_pre a) (x_rest a)) ->
    x_buf a = raw ++ rest -> N.of_nat (length raw) = so_max_command_size o -> False.
  Proof.
    intros a w l r raw rest (Hlen & _) Er Hfl Hfit Hno Hb Hr.
    assert (Hf : fits mx (length (x_pre a))) by (cbn; lia).
    assert (W : within mx (x_buf a) = raw).
    { rewrite Hb. unfold within. destruct (N.leb _ _) eqn:E.
      - rewrite app_length in E. destruct rest; [|cbn in E; lia]. now rewrite app_nil_r.
      - rewrite <- Hr, Nnat.Nat2N.id. apply firstn_app_exact. }
    unfold x_buf in W, Hb. rewrite within_view in W by exact Hf.
    rewrite Er, app_assoc in Hb.
    destruct (app_prefix_cases _ _ _ _ Hb) as [(e & E1 & E2)|(e & E1 & E2)].
    - rewrite E1, <- app_assoc in W. apply app_inv_head in W.
      eapply Hno; eauto.
    - assert (e = []).
      { rewrite E1, app_length in Hfit. destruct e; [reflexivity|]. cbn in Hfit. lia. }
      subst e. rewrite app_nil_r in E1. rewrite <- E1 in W. apply app_inv_head in W.
      apply (Hno w l []); [exact Hfl|]. now rewrite app_nil_r.
  Qed.

  Lemma xstep_det : forall a l1 a1 l2 a2, xwf a -> snext_label l1 -> snext_label l2 ->
    xstep a l1 a1 -> xstep a l2 a2 -> l1 = l2 /\ a1 = a2.
  Proof.
    intros a l1 a1 l2 a2 Hwf L1 L2 H1 H2.
    assert (Q : forall m q s1, ss_current (x_send a) = None -> ss_queue (x_send a) = m :: q ->
      quiet (x_send a) = Some s1 -> False).
    { intros m q s1 E1 E2 Hq. unfold quiet in Hq. rewrite E1, E2 in Hq. discriminate. }
    assert (Q2 : forall m e s1, ss_current (x_send a) = Some m -> sent_event m = Some e ->
      quiet (x_send a) = Some s1 -> False).
    { intros m e s1 E1 E2 Hq. unfold quiet in Hq. rewrite E1 in Hq.
      destruct m as [g|[h|] r]; try discriminate. }
    assert (F : forall raw rest v, x_buf a = raw ++ rest -> sframe K o (x_mode a) raw (x_lits a) v ->
      (N.of_nat (length raw) <= so_max_command_size o)%N -> xframe a (Some v) raw rest).
    { intros raw rest v B S L. split; [exact B|]. split; [exact S|exact L]. }
    destruct H1 as [a p1 a1 e1 H1|a m1 q1 Hc1 Hq1|a m1 e1 Hc1 He1|a t1 Hs1 Hcond1
      |a t1 w1 ln1 rest1 i1 n1 Hs1 Hmode1 Hrest1 Hfl1 Hfit1 Hok1 Hd1 Ha1
      |a t1 raw1 rest1 v1 Hs1 Hbuf1 Hfr1 Hfit1
      |a t1 raw1 rest1 Hs1 Hmode1 Hno1 Hbuf1 Hraw1];
      [exfalso; exact (call_not_next _ _ _ _ H1 ltac:(eassumption))|..];
    destruct H2 as [a p2 a2 e2 H2|a m2 q2 Hc2 Hq2|a m2 e2 Hc2 He2|a t2 Hs2 Hcond2
      |a t2 w2 ln2 rest2 i2 n2 Hs2 Hmode2 Hrest2 Hfl2 Hfit2 Hok2 Hd2 Ha2
      |a t2 raw2 rest2 v2 Hs2 Hbuf2 Hfr2 Hfit2
      |a t2 raw2 rest2 Hs2 Hmode2 Hno2 Hbuf2 Hraw2];
      try (exfalso; exact (call_not_next _ _ _ _ H2 ltac:(eassumption)));
      try (exfalso; eapply Q; eassumption);
      try (exfalso; eapply Q2; eassumption);
      try congruence;
      try (rewrite Hs1 in Hs2; injection Hs2 as <-).
    - rewrite Hq1 in Hq2. injection Hq2 as <- <-. auto.
    - assert (m1 = m2) by congruence. subst m2. assert (e1 = e2) by congruence. subst e2. auto.
    - (* need more *) auto.
    - (* need more, literal *) exfalso.
      destruct Hcond1 as [X|(X & _)]; [congruence|]. eapply X; eauto.
    - exfalso. eapply frame_need_more; eauto.
    - exfalso. destruct Hcond1 as [X|(_ & X)]; [congruence|].
      rewrite Hbuf2, app_length in X. lia.
    - exfalso. destruct Hcond2 as [X|(X & _)]; [congruence|]. eapply X; eauto.
    - (* two literals *)
      rewrite Hrest1 in Hrest2.
      destruct (frag_line_unique _ _ _ _ _ _ _ Hfl1 Hfl2 Hrest2) as (-> & -> & ->).
      rewrite Hd1 in Hd2. injection Hd2 as ->. rewrite Ha1 in Ha2. injection Ha2 as ->. auto.
    - exfalso. eapply (frame_lit a (Some v2) raw2 rest2 w1); eauto.
    - exfalso. eapply (lit_toolong a w1 ln1 rest1 raw2 rest2); eauto.
    - exfalso. eapply frame_need_more; eauto.
    - exfalso. eapply (frame_lit a (Some v1) raw1 rest1 w2); eauto.
    - (* two messages *)
      pose proof Hbuf1 as E. rewrite Hbuf2 in E.
      destruct (sframe_opt_det (x_mode a) raw2 (x_lits a) (Some v2) raw1 (x_lits a) (Some v1)
        rest2 rest1 Hfr2 Hfr1 E) as (-> & Ev).
      injection Ev as ->. apply app_inv_head in E. subst rest2. auto.
    - exfalso. eapply (frame_toolong a (Some v1) raw1 rest1 raw2 rest2); eauto.
    - exfalso. destruct Hcond2 as [X|(_ & X)]; [congruence|].
      rewrite Hbuf1, app_length in X. lia.
    - exfalso. eapply (lit_toolong a w2 ln2 rest2 raw1 rest1); eauto.
    - exfalso. eapply (frame_toolong a (Some v2) raw2 rest2 raw1 rest1); eauto.
    - assert (E : raw1 = raw2 /\ rest1 = rest2).
      { rewrite Hbuf1 in Hbuf2. apply app_inv_length in Hbuf2; [exact Hbuf2|lia]. }
      destruct E as [-> ->]. auto.
  Qed.

  Lemma xstep_trailing : forall a l a', xwf a -> snext_label l -> xstep a l a' -> ~ xtrailing a.
  Proof.
    intros a l a' Hwf L H (t2 & raw2 & rest2 & Hs2 & Hbuf2 & Hfit2 & Hfr2).
    assert (F : xframe a None raw2 rest2) by (split; [exact Hbuf2|]; split; [exact Hfr2|exact Hfit2]).
    destruct H as [a p1 a1 e1 H1|a m1 q1 Hc1 Hq1|a m1 e1 Hc1 He1|a t1 Hs1 Hcond1
      |a t1 w1 ln1 rest1 i1 n1 Hs1 Hmode1 Hrest1 Hfl1 Hfit1 Hok1 Hd1 Ha1
      |a t1 raw1 rest1 v1 Hs1 Hbuf1 Hfr1 Hfit1
      |a t1 raw1 rest1 Hs1 Hmode1 Hno1 Hbuf1 Hraw1].
    - exfalso; exact (call_not_next _ _ _ _ H1 ltac:(eassumption)).
    - unfold quiet in Hs2. rewrite Hc1, Hq1 in Hs2. discriminate.
    - unfold quiet in Hs2. rewrite Hc1 in Hs2. destruct m1 as [g|[h|] r]; discriminate.
    - eapply frame_need_more; eauto.
    - eapply (frame_lit a None raw2 rest2 w1); eauto.
    - pose proof Hbuf1 as E. rewrite Hbuf2 in E.
      destruct (sframe_opt_det (x_mode a) raw2 (x_lits a) None raw1 (x_lits a) (Some v1)
        rest2 rest1 Hfr2 Hfr1 E) as (_ & Ev). discriminate.
    - eapply (frame_toolong a None raw2 rest2 raw1 rest1); eauto.
  Qed.

  Lemma lab_inj : forall g1 r1 g2 r2,
    map SlRx g1 ++ [SlNext r1] = map SlRx g2 ++ [SlNext r2] -> g1 = g2 /\ r1 = r2.
  Proof.
    induction g1 as [|x g1 IH]; intros r1 [|y g2] r2 E; cbn in E; try discriminate.
    - injection E as ->. auto.
    - injection E as -> E. destruct (IH _ _ _ E) as [-> ->]. auto.
  Qed.

  Lemma lab_lit_last : forall g r i, map SlRx g ++ [SlNext r] <> [SlRx (SrxLit i)].
  Proof. intros [|x [|y g]] r i; discriminate. Qed.

  Lemma xnext_det : forall a g1 r1 a1, xnext a g1 r1 a1 -> xwf a -> forall g2 r2 a2, xnext a g2 r2 a2 ->
    g1 = g2 /\ r1 = r2 /\ (r1 <> IPanic -> a1 = a2).
  Proof.
    induction 1 as [a g1 r1 a1 H|a i1 b1 g1 r1 a1 H H' IH|a a1 H]; intros Hwf g2 r2 a2 H2;
      destruct H2 as [a g2 r2 a2 H2|a i2 b2 g2 r2 a2 H2 H2'|a a2 H2].
    - destruct (xstep_det _ _ _ _ _ Hwf (lab_last _ _) (lab_last _ _) H H2) as [E ->].
      apply lab_inj in E as [-> ->]. auto.
    - destruct (xstep_det _ _ _ _ _ Hwf (lab_last _ _) (lab_lit _) H H2) as [E _].
      now apply lab_lit_last in E.
    - now destruct (xstep_trailing _ _ _ Hwf (lab_last _ _) H H2).
    - destruct (xstep_det _ _ _ _ _ Hwf (lab_last _ _) (lab_lit _) H2 H) as [E _].
      now apply lab_lit_last in E.
    - destruct (xstep_det _ _ _ _ _ Hwf (lab_lit _) (lab_lit _) H H2) as [E ->].
      injection E as ->. pose proof (xstep_wf K o _ _ _ Hwf H2) as Hwf2.
      destruct (IH Hwf2 _ _ _ H2') as (-> & -> & E). auto.
    - now destruct (xstep_trailing _ _ _ Hwf (lab_lit _) H H2).
    - now destruct (xstep_trailing _ _ _ Hwf (lab_last _ _) H2 H).
    - now destruct (xstep_trailing _ _ _ Hwf (lab_lit _) H2 H).
    - repeat split; auto. congruence.
  Qed.

  (** Every abstract state is the state of some server. *)
  Lemma srel_exists : forall a, xwf a -> exists s, srel s a.
  Proof.
    intros a Hwf. pose proof Hwf as (Hlen & Hop).
    set (x := RState relaxed mx (NfLiteral (x_need a)) (length (x_pre a)) (x_pre a ++ x_rest a)).
    assert (R : rpos relaxed mx x (x_pre a) (x_need a) (x_rest a)).
    { repeat split. left. repeat split. cbn. lia. }
    exists (ServerSt o (x_gen a) (x_send a)
      (match x_mode a with
       | ExCommand => SrCommand x | ExAuthenticateData => SrAuthenticateData x
       | ExIdleAccept => SrIdleAccept (fresh relaxed mx (x_rest a)) | ExIdleDone => SrIdleDone x end)).
    split; [reflexivity|]. split; [reflexivity|]. split; [reflexivity|]. split; [exact Hwf|].
    cbn [s_recv]. destruct (x_mode a); try exact R. repeat split.
  Qed.

  Lemma xnext_total : forall a, xwf a -> exists g r a', xnext a g r a'.
  Proof.
    intros a Hwf. destruct (srel_exists a Hwf) as [s Hs].
    destruct (server_next K s) as [[s' g] r] eqn:E.
    destruct (server_next_sim K o s a s' g r Hs E) as (a' & H & _). eauto.
  Qed.

  Lemma server_next_det : forall s a g r a' s' g' r',
    srel s a -> xnext a g r a' -> server_next K s = (s', g', r') ->
    g' = g /\ r' = r /\ (r <> IPanic -> srel s' a').
  Proof.
    intros s a g r a' s' g' r' Hs H E.
    destruct (server_next_sim K o s a s' g' r' Hs E) as (a2 & H2 & _ & _ & R).
    assert (Hwf : xwf a) by apply Hs.
    destruct (xnext_det _ _ _ _ H2 Hwf _ _ _ H) as (-> & -> & Ea).
    split; [reflexivity|]. split; [reflexivity|]. intro Hp. rewrite <- (Ea Hp). auto.
  Qed.

  (** *** Internal responses *)

  Definition x_calm (a : xstate) : Prop := count_internal (pending (x_send a)) = 0.
  Definition x_polite (a : xstate) : Prop :=
    x_calm a \/ exists m, pending (x_send a) = [m].

  Lemma polite_quiet : forall a s1, x_polite a -> quiet (x_send a) = Some s1 -> s1 = SSend [] None.
  Proof.
    intros a s1 P Hq. unfold quiet in Hq. unfold x_polite, x_calm, pending in P.
    destruct (ss_current (x_send a)) as [[g|[h|] r]|] eqn:Ec; try discriminate.
    - injection Hq as <-. destruct P as [P|(m & P)].
      + discriminate.
      + cbn in P. injection P as P ->. reflexivity.
    - destruct (ss_queue (x_send a)) eqn:Eq; [|discriminate]. injection Hq as <-.
      destruct (x_send a) as [q c]. cbn in Ec, Eq. now subst.
  Qed.

  Lemma push_polite : forall i m, when_sync i m = [] \/ when_sync i m = [m].
  Proof. intros i m. unfold when_sync. destruct (cl_mode i); auto. Qed.

  (** Steps of [next] keep this up; nothing internal waits after a settled result. *)
  Lemma xstep_polite : forall a l a', x_polite a -> snext_label l -> xstep a l a' ->
    x_polite a' /\ (forall r, In (SlNext r) l -> settled_result r = true -> x_calm a').
  Proof.
    intros a l a' P L H.
    assert (E : forall ms, pending (ss_push (SSend [] None) ms) = ms) by reflexivity.
    destruct H as [a p1 a1 e1 H1|a m1 q1 Hc1 Hq1|a m1 e1 Hc1 He1|a t1 Hs1 Hcond1
      |a t1 w1 ln1 rest1 i1 n1 Hs1 Hmode1 Hrest1 Hfl1 Hfit1 Hok1 Hd1 Ha1
      |a t1 raw1 rest1 v1 Hs1 Hbuf1 Hfr1 Hfit1
      |a t1 raw1 rest1 Hs1 Hmode1 Hno1 Hbuf1 Hraw1].
    - exfalso; exact (call_not_next _ _ _ _ H1 ltac:(eassumption)).
    - split.
      + unfold x_polite, x_calm, pending in *. cbn. rewrite Hc1, Hq1 in P. cbn in P. exact P.
      + intros r [R|[]]. injection R as <-. discriminate.
    - assert (C : x_calm (x_set_send a (SSend (ss_queue (x_send a)) None))).
      { unfold x_polite, x_calm, pending in *. cbn. rewrite Hc1 in P. cbn in P.
        destruct P as [P|(m & P)].
        - unfold count_internal in *. cbn in P. destruct (internal m1); [discriminate|exact P].
        - injection P as _ ->. reflexivity. }
      split; [now left|auto].
    - rewrite (polite_quiet _ _ P Hs1). split; [left; reflexivity|]. reflexivity.
    - rewrite (polite_quiet _ _ P Hs1). split.
      + unfold x_polite, x_calm. cbn [x_send]. rewrite E.
        destruct (push_polite i1 (SmResponse None (accept_response o i1))) as [-> | ->]; eauto.
      + intros r [R|[]]. discriminate.
    - rewrite (polite_quiet _ _ P Hs1). split.
      + unfold x_polite, x_calm, x_start. cbn [x_send]. rewrite E.
        destruct v1; cbn [pushed_by]; try (left; reflexivity).
        match goal with |- context [when_sync ?i ?m] =>
          destruct (push_polite i m) as [-> | ->]; eauto end.
      + intros r [R|[R|[]]] Hr; [discriminate|]. injection R as <-.
        unfold x_calm, x_start. cbn [x_send]. rewrite E.
        destruct v1; cbn in Hr; try discriminate; reflexivity.
    - rewrite (polite_quiet _ _ P Hs1). split; [left; reflexivity|]. reflexivity.
  Qed.

  Lemma xnext_polite : forall a g r a', xnext a g r a' -> r <> IPanic -> x_polite a ->
    x_polite a' /\ (settled_result r = true -> x_calm a').
  Proof.
    intros a g r a' H Hp P. induction H as [a g r a' H|a i a1 g r a' H H2 IH|a a' H]; [..|congruence].
    - destruct (xstep_polite _ _ _ P (lab_last _ _) H) as [P' C]. split; [exact P'|].
      apply C. apply in_or_app. right. cbn. auto.
    - destruct (xstep_polite _ _ _ P (lab_lit _) H) as [P' C]. auto.
  Qed.

  Lemma xcall_calm : forall a p a' e, x_calm a -> xcall a p = Some (a', e) -> x_calm a'.
  Proof.
    intros a p a' e C H.
    assert (X : forall h r, count_internal (pending (ss_enqueue (x_send a) (SmResponse (Some h) r))) = 0).
    { intros h r. unfold x_calm, pending in *. cbn [ss_enqueue ss_current ss_queue].
      rewrite app_assoc, count_app, C. reflexivity. }
    destruct p; cbn in H; try discriminate; try (destruct (x_mode a)); injection H as <- <-;
      unfold x_calm; cbn [x_send]; auto; exact C.
  Qed.

  (** *** Asking for input *)

  Lemma xstep_send : forall a s l a', x_polite a -> quiet (x_send a) = Some s -> snext_label l ->
    xstep (x_set_send a s) l a' -> xstep a l a'.
  Proof.
    intros a s l a' P Hq L H. pose proof (polite_quiet _ _ P Hq) as ->.
    remember (x_set_send a (SSend [] None)) as b eqn:Eb.
    destruct H as [b p1 a1 e1 H1|b m1 q1 Hc1 Hq1|b m1 e1 Hc1 He1|b t1 Hs1 Hcond1
      |b t1 w1 ln1 rest1 i1 n1 Hs1 Hmode1 Hrest1 Hfl1 Hfit1 Hok1 Hd1 Ha1
      |b t1 raw1 rest1 v1 Hs1 Hbuf1 Hfr1 Hfit1
      |b t1 raw1 rest1 Hs1 Hmode1 Hno1 Hbuf1 Hraw1].
    - exfalso; exact (call_not_next _ _ _ _ H1 ltac:(eassumption)).
    - subst b. discriminate.
    - subst b. discriminate.
    - subst b. injection Hs1 as <-. exact (x_need_more K o a _ Hq Hcond1).
    - subst b. injection Hs1 as <-.
      exact (x_lit K o a _ _ _ _ _ _ Hq Hmode1 Hrest1 Hfl1 Hfit1 Hok1 Hd1 Ha1).
    - subst b. injection Hs1 as <-. exact (x_msg K o a _ _ _ _ Hq Hbuf1 Hfr1 Hfit1).
    - subst b. injection Hs1 as <-. exact (x_toolong K o a _ _ _ Hq Hmode1 Hno1 Hbuf1 Hraw1).
  Qed.

  Lemma xnext_send : forall a s g r a', x_polite a -> quiet (x_send a) = Some s ->
    xnext (x_set_send a s) g r a' -> xnext a g r a'.
  Proof.
    intros a s g r a' P Hq H. remember (x_set_send a s) as b eqn:Eb.
    destruct H as [b g r a' H|b i a1 g r a' H H2|b a' H]; subst b.
    - apply xn_last. eapply xstep_send; eauto.
    - eapply xn_lit; [|exact H2]. eapply xstep_send; eauto.
    - apply xn_stuck. destruct H as (t & raw & rest & Ht & H).
      exists s, raw, rest. split; [exact Hq|exact H].
  Qed.

  Lemma xnext_need_more : forall a g r1 a' x g2 r a2, xwf a -> x_polite a ->
    xnext a g r1 a' -> r1 = INeedMore -> xnext (x_add a' x) g2 r a2 ->
    xnext (x_add a x) (g ++ g2) r a2.
  Proof.
    intros a g r1 a' x g2 r a2 Hwf P H E H2.
    induction H as [a g r1 a' H|a i a1 g r1 a' H _ IH|a a' H]; try discriminate.
    - subst r1. remember (map SlRx g ++ [SlNext INeedMore]) as lb eqn:EL in H.
      destruct H as [a p1 a1 e1 H1|a m1 q1 Hc1 Hq1|a m1 e1 Hc1 He1|a t1 Hs1 Hcond1
        |a t1 w1 ln1 rest1 i1 n1 Hs1 Hmode1 Hrest1 Hfl1 Hfit1 Hok1 Hd1 Ha1
        |a t1 raw1 rest1 v1 Hs1 Hbuf1 Hfr1 Hfit1
        |a t1 raw1 rest1 Hs1 Hmode1 Hno1 Hbuf1 Hraw1];
        destruct g as [|y [|z g]]; cbn in EL; try discriminate.
      + apply xcall_label in H1 as [H1 _]. injection EL as EL. now apply H1 in EL.
      + cbn [app]. eapply (xnext_send (x_add a x)); eauto.
      + injection EL as _ EL. destruct v1; discriminate.
    - cbn [app]. eapply xn_lit.
      + apply xstep_add; eauto. discriminate.
      + apply IH; auto; [eapply xstep_wf; eauto|].
        apply (xstep_polite _ _ _ P (lab_lit _) H).
  Qed.

  (** *** Calls *)

  Lemma xcall_add : forall a p x, is_scall p ->
    xcall (x_add a x) p =
    match xcall a p with Some (a', e) => Some (x_add a' x, e) | None => None end.
  Proof.
    intros a p x Hp. destruct p; try contradiction; cbn; auto;
      destruct (x_mode a); reflexivity.
  Qed.

  Lemma xcall_some : forall a p, is_scall p -> exists a' e, xcall a p = Some (a', e).
  Proof.
    intros a p Hp. destruct p; try contradiction; cbn; eauto; destruct (x_mode a); eauto.
  Qed.

  Lemma call_step : forall s a p, srel s a -> is_scall p ->
    exists s' a' e, server_step K s p = (Some s', [e]) /\ xcall a p = Some (a', e) /\ srel s' a'.
  Proof.
    intros s a p R Hp.
    assert (Hn : p <> SopNext) by (intros ->; contradiction).
    destruct (server_call_ok K o s a p R Hn) as (s' & l & E).
    destruct (server_call_sim K o s a p s' l R Hn E) as (a' & e & -> & X & R'). eauto 8.
  Qed.

  Lemma enqueue_input_sim : forall s a x, srel s a ->
    exists s', server_enqueue_input s x = Val s' /\ srel s' (x_add a x).
  Proof.
    intros s a x R.
    assert (Hn : SopEnqueueInput x <> SopNext) by discriminate.
    destruct (server_call_ok K o s a _ R Hn) as (s' & l & E).
    destruct (server_call_sim K o s a _ s' l R Hn E) as (a' & e & -> & X & R').
    cbn in E, X. injection X as <- <-. exists s'. split; [|exact R'].
    destruct (server_enqueue_input s x); congruence.
  Qed.

  (** *** Driver *)

  Section Driver.
    Variable act : list slog -> option sop.
    Hypothesis Happ : polite act.

    (** All input is available from the start. *)
    Inductive xdrive : xstate -> list slog -> list slog -> Prop :=
    | xd_stop : forall a h, xdrive a h h
    | xd_call : forall a h p e a' h',
        act h = Some p -> is_scall p -> xcall a p = Some (a', e) ->
        xdrive a' (h ++ [e]) h' -> xdrive a h h'
    | xd_next : forall a h g r a' h',
        act h = None -> xnext a g r a' -> r <> INeedMore -> r <> IPanic ->
        xdrive a' (h ++ [SlNext r]) h' -> xdrive a h h'
    | xd_next_panic : forall a h g a',
        act h = None -> xnext a g IPanic a' -> xdrive a h (h ++ [SlPanic]).

    (** What holds at every moment of such a run. *)
    Definition xgood (a : xstate) (h : list slog) : Prop :=
      xwf a /\ x_polite a /\ (settled h = true -> x_calm a).

    Lemma last_result_app : forall h e,
      last_result (h ++ [e]) = match e with SlNext r => Some r | _ => last_result h end.
    Proof.
      induction h as [|x h IH]; intro e; [destruct e; reflexivity|].
      cbn [app last_result]. rewrite IH. destruct x; auto. destruct e; auto.
    Qed.

    Lemma settled_call : forall a p a' e h, xcall a p = Some (a', e) -> settled (h ++ [e]) = settled h.
    Proof.
      intros a p a' e h H. apply xcall_label in H as [H _]. unfold settled.
      rewrite last_result_app. destruct e; auto. exfalso. eapply H; eauto.
    Qed.

    Lemma xgood_call : forall a h p a' e, xgood a h -> act h = Some p ->
      xcall a p = Some (a', e) -> xgood a' (h ++ [e]).
    Proof.
      intros a h p a' e (W & P & C) Ha H. pose proof (Happ _ _ Ha) as S.
      pose proof (xcall_calm _ _ _ _ (C S) H) as C'.
      split; [eapply xcall_wf; eauto|]. split; [now left|auto].
    Qed.

    Lemma xgood_next : forall a h g r a', xgood a h -> xnext a g r a' -> r <> IPanic ->
      xgood a' (h ++ [SlNext r]).
    Proof.
      intros a h g r a' (W & P & C) H Hp.
      destruct (xnext_polite _ _ _ _ H Hp P) as [P' C'].
      split; [eapply xnext_wf; eauto|]. split; [exact P'|].
      unfold settled. now rewrite last_result_app.
    Qed.

    (** Asking for input leaves nothing internal waiting. *)
    Lemma xgood_need_more : forall a h g a', xgood a h -> xnext a g INeedMore a' -> xgood a' h.
    Proof.
      intros a h g a' (W & P & C) H.
      destruct (xnext_polite _ _ _ _ H ltac:(discriminate) P) as [P' C'].
      split; [eapply xnext_wf; eauto; discriminate|]. split; [exact P'|auto].
    Qed.

    Lemma xgood_add : forall a h x, xgood a h -> xgood (x_add a x) h.
    Proof. intros a h x H. exact H. Qed.

    Lemma xdrive_need_more : forall a g a' y h h', xgood a h -> act h = None ->
      xnext a g INeedMore a' -> xdrive (x_add a' y) h h' -> xdrive (x_add a y) h h'.
    Proof.
      intros a g a' y h h' (W & P & C) Ha Hn H.
      remember (x_add a' y) as b eqn:Eb.
      destruct H as [b h|b h p e b' h' H1 H2 H3 H4|b h g2 r b' h' H1 H2 H3 H4 H5|b h g2 b' H1 H2];
        subst b; try congruence.
      - apply xd_stop.
      - eapply xd_next; eauto. eapply xnext_need_more; eauto.
      - eapply xd_next_panic; eauto. eapply xnext_need_more; eauto.
    Qed.

    Lemma sdrive_xdrive : forall s xs h h', sdrive K act s xs h h' ->
      forall a, srel s a -> xgood a h -> xdrive (x_add a (concat xs)) h h'.
    Proof.
      induction 1 as [s xs h|s xs h p s' l h' H1 H2 H3 _ IH|s xs h p l H1 H2 H3
        |s xs h s' g r h' H1 H2 H3 H4 _ IH|s xs h s' g H1 H2|s x xs h s' g s'' h' H1 H2 H3 _ IH];
        intros a R G.
      - apply xd_stop.
      - destruct (call_step s a p R H2) as (s2 & a' & e & E & X & R').
        rewrite H3 in E. injection E as <- ->.
        eapply xd_call; eauto; [rewrite xcall_add, X by assumption; reflexivity|].
        apply IH; auto. eapply xgood_call; eauto.
      - destruct (call_step s a p R H2) as (s2 & a' & e & E & X & R'). congruence.
      - destruct (server_next_sim K o s a s' g r R H2) as (a' & N & _ & _ & R').
        eapply xd_next; eauto; [apply xnext_add; eauto; apply R|].
        apply IH; auto. eapply xgood_next; eauto.
      - destruct (server_next_sim K o s a s' g _ R H2) as (a' & N & _ & _ & _).
        eapply xd_next_panic; eauto. apply xnext_add; [apply R|eauto|discriminate].
      - destruct (server_next_sim K o s a s' g _ R H2) as (a' & N & _ & _ & R').
        specialize (R' ltac:(discriminate)).
        destruct (enqueue_input_sim s' a' x R') as (s3 & E & R3).
        rewrite H3 in E. injection E as <-.
        pose proof (xgood_need_more _ _ _ _ G N) as G'.
        specialize (IH _ R3 G').
        cbn [concat]. eapply xdrive_need_more; eauto. now rewrite <- x_add_add.
    Qed.

    Lemma sdrive_feed : forall xs s a g r b h h',
      srel s a -> xgood a h -> act h = None -> xnext (x_add a (concat xs)) g r b ->
      r <> INeedMore ->
      (r <> IPanic -> forall s1 a1 xs1, srel s1 a1 -> b = x_add a1 (concat xs1) ->
         xgood a1 (h ++ [SlNext r]) -> sdrive K act s1 xs1 (h ++ [SlNext r]) h') ->
      (r = IPanic -> h' = h ++ [SlPanic]) ->
      sdrive K act s xs h h'.
    Proof.
      induction xs as [|x xs IH]; intros s a g r b h h' R G Ha N Hr Hk Hp;
        destruct (server_next K s) as [[s1 g1] r1] eqn:E;
        destruct (server_next_sim K o s a s1 g1 r1 R E) as (a1 & N1 & _ & _ & R1);
        assert (Hwf : xwf a) by apply R.
      - assert (E0 : x_add a (concat []) = a) by apply x_add_nil.
        pose proof N as N'. rewrite E0 in N'.
        destruct (xnext_det _ _ _ _ N1 Hwf _ _ _ N') as (-> & -> & Eb).
        destruct (s_is_panic r) eqn:Ep.
        + destruct r; try discriminate. rewrite (Hp eq_refl). eapply sd_next_panic; eauto.
        + assert (Hq : r <> IPanic) by (intros ->; discriminate).
          eapply sd_next; eauto. eapply Hk; eauto.
          * rewrite (Eb Hq). symmetry. apply x_add_nil.
          * eapply xgood_next; eauto.
      - assert (D : r1 = INeedMore \/ r1 <> INeedMore) by (destruct r1; auto; right; discriminate).
        destruct D as [->|D].
        + specialize (R1 ltac:(discriminate)).
          destruct (enqueue_input_sim s1 a1 x R1) as (s2 & E2 & R2).
          pose proof (xgood_need_more _ _ _ _ G N1) as G1.
          eapply sd_feed; eauto.
          assert (W1 : xwf (x_add a1 (x ++ concat xs))) by apply G1.
          destruct (xnext_total _ W1) as (g2 & r2 & b2 & N2).
          assert (P : x_polite a) by apply G.
          pose proof (xnext_need_more _ _ _ _ _ _ _ _ Hwf P N1 eq_refl N2) as N3.
          cbn [concat] in N.
          destruct (xnext_det _ _ _ _ N3 Hwf _ _ _ N) as (_ & -> & Eb).
          destruct (s_is_panic r) eqn:Ep.
          * destruct r; try discriminate.
            apply (IH s2 (x_add a1 x) g2 IPanic b2); auto; [|congruence].
            rewrite x_add_add. exact N2.
          * assert (Hq : r <> IPanic) by (intros ->; discriminate).
            eapply (IH s2 (x_add a1 x)); eauto. rewrite x_add_add, <- (Eb Hq). exact N2.
        + pose proof (xnext_add _ _ _ _ (concat (x :: xs)) Hwf N1 D) as N2.
          destruct (xnext_det _ _ _ _ N2 Hwf _ _ _ N) as (-> & -> & Eb).
          destruct (s_is_panic r) eqn:Ep.
          * destruct r; try discriminate. rewrite (Hp eq_refl). eapply sd_next_panic; eauto.
          * assert (Hq : r <> IPanic) by (intros ->; discriminate).
            eapply sd_next; eauto. eapply Hk; eauto.
            -- symmetry. auto.
            -- eapply xgood_next; eauto.
    Qed.

    Lemma xdrive_sdrive : forall b h h', xdrive b h h' -> forall s a xs,
      srel s a -> xgood a h -> b = x_add a (concat xs) -> sdrive K act s xs h h'.
    Proof.
      induction 1 as [b h|b h p e b' h' H1 H2 H3 _ IH|b h g r b' h' H1 H2 H3 H4 _ IH|b h g b' H1 H2];
        intros s a xs R G ->.
      - apply sd_stop.
      - destruct (call_step s a p R H2) as (s2 & a' & e' & E & X & R').
        rewrite xcall_add, X in H3 by assumption. injection H3 as <- <-.
        eapply sd_call; eauto. eapply IH; eauto. eapply xgood_call; eauto.
      - eapply sdrive_feed; eauto. congruence.
      - eapply sdrive_feed; eauto; [discriminate|congruence].
    Qed.

    Lemma sdrive_chunks : forall s a xs1 xs2 h h', srel s a -> xgood a h ->
      concat xs1 = concat xs2 ->
      sdrive K act s xs1 h h' -> sdrive K act s xs2 h h'.
    Proof.
      intros s a xs1 xs2 h h' R G E H. eapply xdrive_sdrive; [|exact R|exact G|reflexivity].
      rewrite <- E. eapply sdrive_xdrive; eauto.
    Qed.
  End Driver.
End Det.
