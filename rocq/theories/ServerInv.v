(** Invariants that relate the state of the server with its log. *)
From Coq Require Import List NArith Bool PeanoNat Lia ZifyBool ZifyNat ZifyN.
From Verif Require Import Base Types Codec Handle Receive ServerSend Server SpecFraming
  SpecClient SpecServer ReceiveProofs ClientRecv ServerRecv ServerAbs.
Import ListNotations.

(** ** Logs *)

Lemma sinputs_app : forall a b, sinputs (a ++ b) = sinputs a ++ sinputs b.
Proof.
  induction a as [|e a IH]; intro b; [reflexivity|].
  destruct e; cbn; rewrite IH; try reflexivity. now rewrite app_assoc.
Qed.

Lemma staken_app : forall a b, staken (a ++ b) = staken a ++ staken b.
Proof.
  induction a as [|e a IH]; intro b; [reflexivity|].
  destruct e; cbn; rewrite ?IH; try reflexivity. destruct m; now rewrite ?IH.
Qed.

Lemma staken_bytes_app : forall a b, staken_bytes (a ++ b) = staken_bytes a ++ staken_bytes b.
Proof. intros. unfold staken_bytes. now rewrite staken_app, map_app, concat_app. Qed.

Lemma sresults_app : forall a b, sresults (a ++ b) = sresults a ++ sresults b.
Proof. induction a as [|e a IH]; intro b; [reflexivity|]. destruct e; cbn; now rewrite ?IH. Qed.

Lemma sevents_app : forall a b, sevents (a ++ b) = sevents a ++ sevents b.
Proof.
  induction a as [|e a IH]; intro b; [reflexivity|].
  destruct e; cbn; rewrite ?IH; try reflexivity. destruct r; now rewrite ?IH.
Qed.

Lemma souts_app : forall a b, souts (a ++ b) = souts a ++ souts b.
Proof.
  induction a as [|e a IH]; intro b; [reflexivity|].
  destruct e; cbn; rewrite ?IH; try reflexivity. destruct r; now rewrite ?IH.
Qed.

Lemma smode_app : forall a b, smode (a ++ b) = fold_left smode_step b (smode a).
Proof. intros. unfold smode. apply fold_left_app. Qed.

Lemma slits_app : forall a b, slits (a ++ b) = fold_left slits_step b (slits a).
Proof. intros. unfold slits. apply fold_left_app. Qed.

Lemma scheduled_app : forall o gr a b,
  scheduled o gr (a ++ b) = scheduled o gr a ++ flat_map (scheduled_by o) b.
Proof. intros. unfold scheduled. now rewrite flat_map_app. Qed.

Definition internal (m : smsg) : bool :=
  match m with SmResponse None _ => true | _ => false end.

Definition pending (s : ssend) : list smsg := opt_list (ss_current s) ++ ss_queue s.

Section Inv.
  Variable K : Codecs.
  Variable o : soptions.
  Variable g0 : hgen.
  Variable gr : greeting.

  Notation xstep := (xstep K o).
  Notation xsteps := (xsteps K o).

  Definition count_internal (ms : list smsg) : nat := length (filter internal ms).

  (** What is being sent was output last. *)
  Definition last_out (l : list slog) (c : option smsg) : Prop :=
    match c with
    | Some m => exists l1 lm,
        l = l1 ++ SlNext (IOutput (smsg_bytes K m)) :: lm /\ sresults lm = [] /\
        nth_error (scheduled o gr l1) (length (souts l1)) = Some m
    | None => forall l1 b lm, l = l1 ++ SlNext (IOutput b) :: lm -> sresults lm = [] ->
          exists m, nth_error (scheduled o gr l1) (length (souts l1)) = Some m /\ internal m = true
    end.

  Record sinv (l : list slog) (a : xstate) : Prop := SInv {
    si_wf : xwf K o a;
    si_bytes : sinputs l = staken_bytes l ++ x_buf a;
    si_mode : smode l = x_mode a;
    si_lits : slits l = x_lits a;
    si_queue : exists dn,
      scheduled o gr l = dn ++ pending (x_send a) /\
      souts l = map (smsg_bytes K) (dn ++ opt_list (ss_current (x_send a))) /\
      filter is_sent_event (sevents l) = sent_events dn;
    si_one : count_internal (pending (x_send a)) <= 1;
    si_last : last_out l (ss_current (x_send a))
  }.

  Lemma sinv_new : sinv [] (xnew g0 gr).
  Proof.
    constructor; try reflexivity.
    - apply xwf_new.
    - exists []. auto.
    - unfold count_internal. cbn. lia.
    - cbn. intros l1 b lm H. destruct l1; discriminate.
  Qed.

  Lemma filter_app_nil : forall (f : sevent -> bool) (l l' : list slog),
    filter f (sevents (l ++ l')) = filter f (sevents l) ++ filter f (sevents l').
  Proof. intros. now rewrite sevents_app, filter_app. Qed.

  (** The last result of [next] is at one place. *)
  Lemma last_unique : forall l1 r lm l1' r' lm',
    l1 ++ SlNext r :: lm = l1' ++ SlNext r' :: lm' -> sresults lm = [] -> sresults lm' = [] ->
    l1 = l1' /\ r = r' /\ lm = lm'.
  Proof.
    intros l1 r lm l1' r' lm' E H H'.
    destruct (app_prefix_cases _ _ _ _ E) as [(e & E1 & E2)|(e & E1 & E2)];
      destruct e as [|e0 e]; simpl in E2.
    - injection E2 as -> ->. rewrite app_nil_r in E1. auto.
    - injection E2 as <- ->. exfalso. rewrite sresults_app in H. cbn in H.
      destruct (sresults e); discriminate.
    - injection E2 as -> ->. rewrite app_nil_r in E1. auto.
    - injection E2 as <- ->. exfalso. rewrite sresults_app in H'. cbn in H'.
      destruct (sresults e); discriminate.
  Qed.

  Lemma last_app : forall l l' l1 r lm,
    sresults l' = [] -> l ++ l' = l1 ++ SlNext r :: lm -> sresults lm = [] ->
    exists lm', l = l1 ++ SlNext r :: lm' /\ sresults lm' = [].
  Proof.
    intros l l' l1 r lm Hn E H.
    destruct (app_prefix_cases _ _ _ _ E) as [(e & E1 & E2)|(e & E1 & E2)].
    - exfalso. rewrite E2 in Hn. rewrite sresults_app in Hn. cbn in Hn.
      destruct (sresults e); discriminate.
    - destruct e as [|e0 e].
      + simpl in E2. exfalso. rewrite <- E2 in Hn. discriminate.
      + injection E2 as <- ->. exists e. split; [exact E1|].
        rewrite sresults_app in H. now apply app_eq_nil in H.
  Qed.

  (** Entries without results of [next] do not change what was output last. *)
  Lemma last_keep : forall l l' c, sresults l' = [] -> last_out l c -> last_out (l ++ l') c.
  Proof.
    intros l l' c Hn H. destruct c as [m|].
    - destruct H as (l1 & lm & -> & H1 & H2). exists l1, (lm ++ l').
      rewrite <- app_assoc. repeat split; auto. rewrite sresults_app, H1, Hn. reflexivity.
    - intros l1 b lm E Hlm.
      destruct (last_app _ _ _ _ _ Hn E Hlm) as (lm' & E' & Hlm'). eapply H; eauto.
  Qed.

  (** An internal message is finished silently. *)
  Lemma last_internal : forall l c, last_out l c ->
    (forall m, c = Some m -> internal m = true) -> last_out l None.
  Proof.
    intros l [m|] H Hi; [|exact H]. destruct H as (l1 & lm & -> & H1 & H2).
    intros l1' b lm' E Hlm'.
    destruct (last_unique _ _ _ _ _ _ E H1 Hlm') as (<- & _ & _). eauto.
  Qed.

  (** After a result other than an output nothing is in the state of being sent. *)
  Lemma last_clear : forall l l' r,
    (forall b, r <> IOutput b) -> sresults l' = [r] -> last_out (l ++ l') None.
  Proof.
    intros l l' r Hr Hn l1 b lm E Hlm. exfalso.
    destruct (app_prefix_cases _ _ _ _ E) as [(e & E1 & E2)|(e & E1 & E2)].
    - rewrite E2 in Hn. rewrite sresults_app in Hn. cbn in Hn. rewrite Hlm in Hn.
      destruct (sresults e) as [|x [|y e']]; try discriminate.
      injection Hn as <-. now apply (Hr b).
    - destruct e as [|e0 e].
      + simpl in E2. rewrite <- E2 in Hn. cbn in Hn. rewrite Hlm in Hn.
        injection Hn as <-. now apply (Hr b).
      + injection E2 as <- ->. rewrite sresults_app, Hn in Hlm.
        destruct (sresults e); discriminate.
  Qed.

  Lemma count_app : forall a b, count_internal (a ++ b) = count_internal a + count_internal b.
  Proof. intros. unfold count_internal. rewrite filter_app. apply app_length. Qed.

  (** When input is read nothing internal is waiting to be sent. *)
  Lemma quiet_inv : forall s s1, quiet s = Some s1 ->
    ss_current s1 = None /\ ss_queue s1 = ss_queue s /\
    exists c, ss_current s = c /\ sent_events (opt_list c) = [] /\
      (c = None -> ss_queue s = []) /\
      (count_internal (pending s) <= 1 -> count_internal (ss_queue s1) = 0).
  Proof.
    intros s s1 H. unfold quiet in H.
    destruct (ss_current s) as [[g|[h|] r]|] eqn:Ec; try discriminate.
    - injection H as <-. repeat split; auto. eexists. split; [reflexivity|]. repeat split; auto.
      + discriminate.
      + unfold pending. rewrite Ec. cbn. unfold count_internal. cbn. lia.
    - destruct (ss_queue s) eqn:Eq; [|discriminate]. injection H as <-.
      rewrite Eq. repeat split; auto. eexists. split; [reflexivity|]. repeat split; auto.
  Qed.

  Lemma quiet_internal : forall s s1, quiet s = Some s1 ->
    forall m, ss_current s = Some m -> internal m = true.
  Proof.
    intros s s1 H m Hm. unfold quiet in H. rewrite Hm in H.
    destruct m as [g|[h|] r]; try discriminate. reflexivity.
  Qed.

  Lemma sent_events_app : forall a b, sent_events (a ++ b) = sent_events a ++ sent_events b.
  Proof. intros. unfold sent_events. apply flat_map_app. Qed.

  (** The queue part of the invariant when input is read. *)
  Lemma queue_recv : forall l l' a s1 ms,
    (exists dn,
      scheduled o gr l = dn ++ pending (x_send a) /\
      souts l = map (smsg_bytes K) (dn ++ opt_list (ss_current (x_send a))) /\
      filter is_sent_event (sevents l) = sent_events dn) ->
    quiet (x_send a) = Some s1 ->
    flat_map (scheduled_by o) l' = ms -> souts l' = [] ->
    filter is_sent_event (sevents l') = [] ->
    exists dn,
      scheduled o gr (l ++ l') = dn ++ pending (ss_push s1 ms) /\
      souts (l ++ l') = map (smsg_bytes K) (dn ++ opt_list (ss_current (ss_push s1 ms))) /\
      filter is_sent_event (sevents (l ++ l')) = sent_events dn.
  Proof.
    intros l l' a s1 ms (dn & H1 & H2 & H3) Hq Hs Ho He.
    destruct (quiet_inv _ _ Hq) as (Q1 & Q2 & c & Q3 & Q4 & _).
    exists (dn ++ opt_list (ss_current (x_send a))).
    rewrite scheduled_app, souts_app, filter_app_nil, H1, H2, H3, Hs, Ho, He.
    unfold pending, ss_push. cbn [ss_current ss_queue]. rewrite Q1, Q2. cbn [opt_list app].
    rewrite !app_nil_r. repeat split.
    - now rewrite <- !app_assoc.
    - rewrite sent_events_app, Q3, Q4, app_nil_r. reflexivity.
  Qed.

  Lemma one_recv : forall a s1 ms,
    count_internal (pending (x_send a)) <= 1 -> quiet (x_send a) = Some s1 ->
    count_internal ms <= 1 -> count_internal (pending (ss_push s1 ms)) <= 1.
  Proof.
    intros a s1 ms H1 Hq Hm. destruct (quiet_inv _ _ Hq) as (Q1 & Q2 & c & _ & _ & _ & Q).
    unfold pending, ss_push. cbn [ss_current ss_queue]. rewrite Q1. cbn [opt_list app].
    rewrite count_app, Q by exact H1. lia.
  Qed.

  Lemma when_sync_one : forall i m, count_internal (when_sync i m) <= 1.
  Proof.
    intros i m. unfold when_sync, count_internal. destruct (cl_mode i); cbn; [|lia].
    destruct (internal m); cbn; lia.
  Qed.

  (** Enqueueing a response. *)
  Lemma queue_call : forall l e s h r,
    (exists dn,
      scheduled o gr l = dn ++ pending s /\
      souts l = map (smsg_bytes K) (dn ++ opt_list (ss_current s)) /\
      filter is_sent_event (sevents l) = sent_events dn) ->
    scheduled_by o e = [SmResponse (Some h) r] -> souts [e] = [] -> sevents [e] = [] ->
    exists dn,
      scheduled o gr (l ++ [e]) = dn ++ pending (ss_enqueue s (SmResponse (Some h) r)) /\
      souts (l ++ [e]) = map (smsg_bytes K)
        (dn ++ opt_list (ss_current (ss_enqueue s (SmResponse (Some h) r)))) /\
      filter is_sent_event (sevents (l ++ [e])) = sent_events dn.
  Proof.
    intros l e s h r (dn & H1 & H2 & H3) Hs Ho He. exists dn.
    rewrite scheduled_app, souts_app, filter_app_nil, Ho, He, H1, H2, H3.
    cbn [flat_map filter]. rewrite Hs, !app_nil_r.
    unfold pending, ss_enqueue. cbn. rewrite <- !app_assoc. auto.
  Qed.

  Lemma queue_same : forall l e s,
    (exists dn,
      scheduled o gr l = dn ++ pending s /\
      souts l = map (smsg_bytes K) (dn ++ opt_list (ss_current s)) /\
      filter is_sent_event (sevents l) = sent_events dn) ->
    scheduled_by o e = [] -> souts [e] = [] -> sevents [e] = [] ->
    exists dn,
      scheduled o gr (l ++ [e]) = dn ++ pending s /\
      souts (l ++ [e]) = map (smsg_bytes K) (dn ++ opt_list (ss_current s)) /\
      filter is_sent_event (sevents (l ++ [e])) = sent_events dn.
  Proof.
    intros l e s (dn & H1 & H2 & H3) Hs Ho He. exists dn.
    rewrite scheduled_app, souts_app, filter_app_nil, Ho, He, H1, H2, H3.
    cbn [flat_map filter]. rewrite Hs, !app_nil_r. auto.
  Qed.

  Lemma one_call : forall s h r,
    count_internal (pending s) <= 1 ->
    count_internal (pending (ss_enqueue s (SmResponse (Some h) r))) <= 1.
  Proof.
    intros s h r H. unfold pending, ss_enqueue in *. cbn [ss_current ss_queue].
    rewrite app_assoc, count_app. unfold count_internal at 2. cbn. lia.
  Qed.

  Lemma bytes_call : forall l e b,
    sinputs l = staken_bytes l ++ b -> sinputs [e] = [] -> staken [e] = [] ->
    sinputs (l ++ [e]) = staken_bytes (l ++ [e]) ++ b.
  Proof.
    intros l e b H H1 H2. rewrite sinputs_app, staken_bytes_app.
    unfold staken_bytes at 2. rewrite H1, H2. cbn. now rewrite !app_nil_r.
  Qed.

  Lemma sinv_call : forall l a p a' e,
    sinv l a -> xcall a p = Some (a', e) -> sinv (l ++ [e]) a'.
  Proof.
    intros l a p a' e [Hwf Hb Hm Hl Hq H1 Hlast] H.
    pose proof (xcall_wf K o _ _ _ _ Hwf H) as Hwf'.
    assert (X : forall r m e' a1 h1, xenqueue a r m = (a1, h1) ->
      scheduled_by o e' = [SmResponse (Some h1) r] -> souts [e'] = [] -> sevents [e'] = [] ->
      sinputs [e'] = [] -> staken [e'] = [] -> sresults [e'] = [] ->
      slits_step (slits l) e' = slits l -> smode_step (smode l) e' = m ->
      Some (a1, e') = Some (a', e) -> sinv (l ++ [e]) a').
    { intros r m e' a1 h1 E S1 S2 S3 S4 S5 S6 S7 S8 EE. injection EE as -> ->.
      unfold xenqueue in E. cbn in E. injection E as <- <-.
      constructor; cbn [x_buf x_mode x_lits x_send x_pre x_rest].
      - exact Hwf'.
      - now apply bytes_call.
      - rewrite smode_app. exact S8.
      - rewrite slits_app. cbn. now rewrite S7.
      - now apply queue_call.
      - now apply one_call.
      - now apply (last_keep l [e] (ss_current (x_send a))). }
    assert (Y : forall e', scheduled_by o e' = [] -> souts [e'] = [] -> sevents [e'] = [] ->
      sinputs [e'] = [] -> staken [e'] = [] -> sresults [e'] = [] ->
      slits_step (slits l) e' = slits l -> smode_step (smode l) e' = smode l ->
      Some (a, e') = Some (a', e) -> sinv (l ++ [e]) a').
    { intros e' S1 S2 S3 S4 S5 S6 S7 S8 EE. injection EE as -> ->.
      constructor; auto.
      - now apply bytes_call.
      - rewrite smode_app. cbn. now rewrite S8.
      - rewrite slits_app. cbn. now rewrite S7.
      - now apply queue_same.
      - now apply last_keep. }
    destruct p as [r|x|q|t|q|t|]; cbn [xcall] in H.
    - destruct (xenqueue a r (x_mode a)) as [a1 h1] eqn:E.
      refine (X _ _ _ _ _ E _ _ _ _ _ _ _ _ H); auto.
    - injection H as <- <-. constructor; cbn [x_buf x_mode x_lits x_send x_pre x_rest]; auto.
      + rewrite sinputs_app, staken_bytes_app, Hb. unfold x_buf. cbn.
        rewrite ?app_nil_r. unfold staken_bytes. cbn. rewrite ?app_nil_r.
        now rewrite <- !app_assoc.
      + rewrite smode_app. exact Hm.
      + rewrite slits_app. exact Hl.
      + now apply queue_same.
      + now apply last_keep.
    - destruct (x_mode a) eqn:Em; try (refine (Y _ _ _ _ _ _ _ _ _ H); auto; fail).
      destruct (xenqueue a _ _) as [a1 h1] eqn:E.
      refine (X _ _ _ _ _ E _ _ _ _ _ _ _ _ H); auto.
    - destruct (x_mode a) eqn:Em; try (refine (Y _ _ _ _ _ _ _ _ _ H); auto; fail).
      destruct (xenqueue a _ _) as [a1 h1] eqn:E.
      refine (X _ _ _ _ _ E _ _ _ _ _ _ _ _ H); auto.
    - destruct (x_mode a) eqn:Em; try (refine (Y _ _ _ _ _ _ _ _ _ H); auto; fail).
      destruct (xenqueue a _ _) as [a1 h1] eqn:E.
      refine (X _ _ _ _ _ E _ _ _ _ _ _ _ _ H); auto.
    - destruct (x_mode a) eqn:Em; try (refine (Y _ _ _ _ _ _ _ _ _ H); auto; fail).
      destruct (xenqueue a _ _) as [a1 h1] eqn:E.
      refine (X _ _ _ _ _ E _ _ _ _ _ _ _ _ H); auto.
    - discriminate.
  Qed.

  Lemma sframe_mode : forall m raw ls v, sframe K o m raw ls v ->
    mode_after m v = smode_step m (SlNext (sresult raw v)).
  Proof.
    intros m raw ls v H. destruct v; try reflexivity.
    cbn. unfold command_event. destruct (cbody c); reflexivity.
  Qed.

  Lemma sresult_no_output : forall raw v b, sresult raw v <> IOutput b.
  Proof. intros raw v b. destruct v; discriminate. Qed.

  Lemma sresult_not_sent : forall raw v,
    filter is_sent_event (sevents [SlRx (SrxMsg raw v); SlNext (sresult raw v)]) = [].
  Proof.
    intros raw v. destruct v; try reflexivity. cbn. unfold command_event.
    destruct (cbody c); reflexivity.
  Qed.

  Lemma sinv_step : forall l a l' a', sinv l a -> xstep a l' a' -> sinv (l ++ l') a'.
  Proof.
    intros l a l' a' Hinv H.
    pose proof Hinv as [Hwf Hb Hm Hl Hq H1 Hlast].
    pose proof (xstep_wf K o _ _ _ Hwf H) as Hwf'.
    destruct H as [a p a' e H|a m q Hc Hqu|a m e Hc He|a s1 Hs Hcond
      |a s1 w ln rest i n Hs Hmode Hrest Hfl Hfit Hok Hd Ha
      |a s1 raw rest v Hs Hbuf Hfr Hfit
      |a s1 raw rest Hs Hmode Hno Hbuf Hraw].
    - eapply sinv_call; eauto.
    - (* output *)
      constructor; cbn [x_set_send x_buf x_mode x_lits x_send x_pre x_rest]; auto.
      + now apply bytes_call.
      + rewrite smode_app. exact Hm.
      + rewrite slits_app. exact Hl.
      + destruct Hq as (dn & D1 & D2 & D3). exists dn.
        rewrite scheduled_app, souts_app, filter_app_nil, D1, D2, D3.
        unfold pending. rewrite Hc, Hqu. cbn. rewrite !app_nil_r, map_app. auto.
      + unfold pending in *. rewrite Hc, Hqu in H1. cbn [ss_current ss_queue opt_list app] in *.
        exact H1.
      + cbn [ss_current]. exists l, []. repeat split.
        destruct Hq as (dn & D1 & D2 & D3). rewrite D1, D2.
        unfold pending. rewrite Hc, Hqu. cbn [opt_list app].
        rewrite app_nil_r, map_length. rewrite nth_error_app2 by lia.
        now rewrite Nat.sub_diag.
    - (* sent *)
      assert (Hse : is_sent_event e = true).
      { destruct m as [g|[h|] r]; try discriminate; injection He as <-; reflexivity. }
      constructor; cbn [x_set_send x_buf x_mode x_lits x_send x_pre x_rest]; auto.
      + now apply bytes_call.
      + rewrite smode_app. cbn. destruct e; try discriminate; exact Hm.
      + rewrite slits_app. exact Hl.
      + destruct Hq as (dn & D1 & D2 & D3). exists (dn ++ [m]).
        rewrite scheduled_app, souts_app, filter_app_nil, D1, D2, D3.
        unfold pending. rewrite Hc. cbn. rewrite Hse, !app_nil_r, <- !app_assoc. cbn.
        repeat split. rewrite sent_events_app. cbn. now rewrite He.
      + unfold pending in *. rewrite Hc in H1. cbn [ss_current ss_queue opt_list app] in *.
        unfold count_internal in *. cbn [filter] in H1. destruct (internal m); cbn in *; lia.
      + cbn [ss_current]. apply (last_clear l [SlNext (IEvent e)] (IEvent e)); [discriminate|reflexivity].
    - (* need more *)
      assert (E1 : ss_push s1 [] = s1) by apply ss_push_nil.
      constructor; cbn [x_set_send x_buf x_mode x_lits x_send x_pre x_rest]; auto.
      + now apply bytes_call.
      + rewrite smode_app. exact Hm.
      + rewrite slits_app. exact Hl.
      + rewrite <- E1. eapply queue_recv; eauto.
      + rewrite <- E1. eapply one_recv; eauto.
      + destruct (quiet_inv _ _ Hs) as (-> & _).
        apply (last_clear l [SlNext INeedMore] INeedMore); [discriminate|reflexivity].
    - (* literal *)
      constructor; cbn [x_buf x_mode x_lits x_send x_pre x_rest]; auto.
      + rewrite (bytes_call l _ (x_buf a)); auto. unfold x_buf. cbn.
        rewrite Hrest, <- !app_assoc. reflexivity.
      + rewrite smode_app. cbn. congruence.
      + rewrite slits_app. cbn. congruence.
      + eapply queue_recv; eauto. cbn. now rewrite app_nil_r.
      + eapply one_recv; eauto. apply when_sync_one.
      + cbn [ss_push ss_current].
        destruct (quiet_inv _ _ Hs) as (-> & _). apply last_keep; [reflexivity|].
        eapply last_internal; [exact Hlast|]. eapply quiet_internal; eauto.
    - (* message *)
      constructor; cbn [x_start x_buf x_mode x_lits x_send x_pre x_rest]; auto.
      + rewrite sinputs_app, staken_bytes_app, Hb, Hbuf. unfold x_buf. cbn.
        unfold staken_bytes. cbn. rewrite ?app_nil_r, <- app_assoc. destruct v; reflexivity.
      + rewrite smode_app, Hm. cbn [fold_left].
        rewrite (sframe_mode _ raw _ _ Hfr). reflexivity.
      + rewrite slits_app. destruct v; reflexivity.
      + eapply queue_recv; eauto.
        * destruct v; cbn; rewrite ?app_nil_r; reflexivity.
        * destruct v; reflexivity.
        * apply sresult_not_sent.
      + eapply one_recv; eauto. destruct v; cbn; try (unfold count_internal; cbn; lia).
        apply when_sync_one.
      + cbn [ss_push ss_current]. destruct (quiet_inv _ _ Hs) as (-> & _).
        eapply last_clear; [|destruct v; reflexivity]. apply sresult_no_output.
    - (* too long *)
      assert (E1 : ss_push s1 [] = s1) by apply ss_push_nil.
      constructor; cbn [x_start x_buf x_mode x_lits x_send x_pre x_rest]; auto.
      + rewrite sinputs_app, staken_bytes_app, Hb, Hbuf. unfold x_buf. cbn.
        unfold staken_bytes. cbn. now rewrite ?app_nil_r, <- app_assoc.
      + rewrite smode_app. exact Hm.
      + rewrite slits_app. reflexivity.
      + rewrite <- E1. eapply queue_recv; eauto.
      + rewrite <- E1. eapply one_recv; eauto.
      + destruct (quiet_inv _ _ Hs) as (-> & _).
        eapply last_clear; [|reflexivity]. discriminate.
  Qed.

  Lemma sinv_steps : forall l a, xsteps (xnew g0 gr) l a -> sinv l a.
  Proof.
    intros l a H. remember (xnew g0 gr) as a0 eqn:E0.
    induction H as [a|a l a1 l1 a2 H IH H1]; subst.
    - apply sinv_new.
    - eapply sinv_step; eauto.
  Qed.

  (** *** Positions in the log *)

  Lemma xsteps_at : forall a l a', xsteps a l a' -> forall l1 e l2, l = l1 ++ e :: l2 ->
    exists l0 a1 la lb a2 l3, xsteps a l0 a1 /\ xstep a1 (la ++ e :: lb) a2 /\
      xsteps a2 l3 a' /\ l1 = l0 ++ la /\ l2 = lb ++ l3.
  Proof.
    intros a l a' H. induction H as [a|a l a1 l' a2 H IH H1]; intros l1 e l2 E.
    - destruct l1; discriminate.
    - destruct (app_prefix_cases _ _ _ _ E) as [(x & E1 & E2)|(x & E1 & E2)].
      + exists l, a1, x, l2, a2, []. rewrite app_nil_r. repeat split; auto.
        * now rewrite <- E2.
        * constructor.
      + destruct x as [|e0 x].
        * exists l, a1, [], l2, a2, []. rewrite app_nil_r in *. simpl in E2.
          subst l1 l'. simpl. rewrite ?app_nil_r. repeat split; auto. constructor.
        * simpl in E2. injection E2 as <- ->.
          destruct (IH _ _ _ E1) as (l0 & b1 & la & lb & b2 & l3 & S1 & S2 & S3 & -> & ->).
          exists l0, b1, la, lb, b2, (l3 ++ l'). rewrite app_assoc.
          repeat split; auto. econstructor; eauto.
  Qed.
End Inv.
