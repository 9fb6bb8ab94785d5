(** Two streams at rest. *)
From Coq Require Import List NArith Bool PeanoNat Lia.
From Verif Require Import Base Types Codec Handle Receive ServerSend ClientSend Client Server
  SpecFraming SpecClient SpecServer ReceiveProofs ClientAbs ServerAbs System SystemAbs SpecSystem
  SpecSystemLive SystemLog SystemResp SystemServer SystemThms SystemLive SystemSettle
  Stream StreamMachine SpecStream StreamProofs StreamThms StreamTls StreamTlsSend StreamEvents
  StreamState StreamServer StreamUpgrade Net SpecNet NetProofs NetSystem NetApp.
From Verif Require ClientInv ServerInv ServerProps ClientDet ServerDet.
Import ListNotations.

(** ** The last call before waiting, with TLS *)

Section LastNext.
Context (T : tls) (M : machine) (fuel : nat).
Notation xst := (xstate T M).

(** A future waits for input only after an iteration of the loop. *)
Lemma read_from_sync : forall (x : xst) a x' l', xstep T M fuel x a = (x', l') -> x_f x' = FRead ->
  (x' = x /\ l' = []) \/
  exists h l0 s1, l' = h :: l0 /\ sync T M fuel s1 (x_m x) = (x', l0) /\
    ((h = XStartNext /\ s1 = x_s x) \/
     (exists b, h = XRead b /\ s1 = StreamSt (x_tls (x_s x)) (x_rbuf (x_s x) ++ b) (x_wbuf (x_s x))) \/
     (h = XWrote (x_wbuf (x_s x)) /\ s1 = StreamSt (x_tls (x_s x)) (x_rbuf (x_s x)) [])).
Proof.
  intros x a x' l' E F. assert (E' := E). apply xstep_log in E'.
  destruct a as [| |r|r|ok| |o]; cbn [xstep] in E.
  - destruct (x_f x) eqn:Fx; try (apply pair_equal_spec in E as [<- <-]; now left).
    destruct (sync T M fuel (x_s x) (x_m x)) as [y k] eqn:Es. apply pair_equal_spec in E as [<- <-].
    right. exists XStartNext, k, (x_s x). auto.
  - destruct (x_f x) eqn:Fx; try (apply pair_equal_spec in E as [<- <-]; now left).
    exfalso. unfold start_flush in E.
    assert (Fl : forall s m l r y k, fail T M s m l r = (y, k) -> x_f y <> FRead).
    { intros s m l r y k H. apply fail_log in H as (_ & _ & _ & _ & _ & [H|H]); rewrite H; discriminate. }
    assert (Fa : forall s, flush_await T s <> FRead) by (intro s; unfold flush_await; destruct (x_wbuf s); discriminate).
    destruct (x_tls (x_s x)) as [t|].
    + destruct (t_flush T t) as [t1|].
      * destruct (sync_output T fuel _ []) as [s2 [e|]].
        -- destruct (fail T M s2 (x_m x) [] e) as [y k] eqn:H. apply pair_equal_spec in E as [<- _].
           eapply Fl; eauto.
        -- apply pair_equal_spec in E as [<- _]. now apply (Fa s2).
      * apply pair_equal_spec in E as [<- _]. discriminate.
    + apply pair_equal_spec in E as [<- _]. now apply (Fa (x_s x)).
  - destruct (reading (x_f x)); [|apply pair_equal_spec in E as [<- <-]; now left].
    destruct r as [[|b r]|]; try (apply pair_equal_spec in E as [<- <-]; discriminate).
    destruct (sync T M fuel _ (x_m x)) as [y k] eqn:Es. apply pair_equal_spec in E as [<- <-].
    right. exists (XRead (b :: r)), k. eexists. split; [reflexivity|]. split; [exact Es|]. right. left. eauto.
  - destruct (writing (x_f x)) eqn:W; [|apply pair_equal_spec in E as [<- <-]; now left].
    assert (NF : x_f x <> FRead) by (intro H; rewrite H in W; discriminate).
    destruct r as [[|n]|]; try (apply pair_equal_spec in E as [<- <-]; discriminate).
    destruct (Nat.leb (S n) (length (x_wbuf (x_s x)))) eqn:Le; [|apply pair_equal_spec in E as [<- <-]; now left].
    cbn [x_wbuf] in E.
    destruct (skipn (S n) (x_wbuf (x_s x))) eqn:Sk.
    + destruct (x_f x) eqn:Fx; try (apply pair_equal_spec in E as [<- <-]; discriminate).
      destruct (sync T M fuel _ (x_m x)) as [y k] eqn:Es. apply pair_equal_spec in E as [<- <-].
      right. eexists _, k, _. split; [reflexivity|]. split; [exact Es|]. right. right. split; [|reflexivity].
      assert (Fn : firstn (S n) (x_wbuf (x_s x)) = x_wbuf (x_s x)).
      { rewrite <- (firstn_skipn (S n) (x_wbuf (x_s x))) at 2. now rewrite Sk, app_nil_r. }
      now rewrite Fn.
    + apply pair_equal_spec in E as [<- <-]. now cbn in F.
  - destruct (x_f x) eqn:Fx; apply pair_equal_spec in E as [<- <-]; try (now left); discriminate.
  - destruct (pending (x_f x)); apply pair_equal_spec in E as [<- <-]; [discriminate|now left].
  - destruct (x_f x) eqn:Fx; try (apply pair_equal_spec in E as [<- <-]; now left).
    destruct (m_call M (x_m x) o) as [[m1 r]|]; apply pair_equal_spec in E as [<- <-]; discriminate.
Qed.

Context (peer : bytes -> bytes) (R : t_st T -> bytes -> bytes -> Prop) (Law : tls_sends T peer R).
Notation sent_to := (StreamTlsSend.sent T M peer R).

Lemma encrypt_grows : forall t wb b t' wb' r, encrypt T fuel t wb b = (t', wb', r) -> exists k, wb' = wb ++ k.
Proof.
  intros t wb b t' wb' r E. unfold encrypt in E.
  destruct (write_all T fuel t b) as [t1 [u| | |]];
    try (apply pair_equal_spec in E as [E _]; apply pair_equal_spec in E as [_ <-]; exists []; now rewrite app_nil_r).
  revert t1 wb E. generalize fuel. intro n. induction n as [|n IH]; intros t1 wb E; cbn in E.
  - apply pair_equal_spec in E as [E _]. apply pair_equal_spec in E as [_ <-]. exists []. now rewrite app_nil_r.
  - destruct (t_wants_write T t1).
    + destruct (t_write_tls T t1) as [[t2 k]|].
      * apply IH in E as (k' & ->). exists (k ++ k'). now rewrite app_assoc.
      * apply pair_equal_spec in E as [E _]. apply pair_equal_spec in E as [_ <-]. exists []. now rewrite app_nil_r.
    + apply pair_equal_spec in E as [E _]. apply pair_equal_spec in E as [_ <-]. exists []. now rewrite app_nil_r.
Qed.

Lemma sync_last : forall (s : stream T) (m : m_st M) x' l' l, sent_to s l ->
  sync T M fuel s m = (x', l') -> no_error l' -> x_f x' = FRead -> last_next M l'.
Proof.
  intros s m x' l' l H E He Fr. unfold sync in E.
  destruct (sync_input T M fuel s m) as [[[s1 m1] l1] r1] eqn:D.
  pose proof (sync_input_R T M fuel peer R Law _ _ _ _ _ _ _ H D) as H1.
  assert (Fl : forall s2 m2 l2 r, fail T M s2 m2 l2 r = (x', l') -> False).
  { intros s2 m2 l2 r F. apply fail_log in F as (_ & _ & _ & _ & _ & [F|F]); rewrite F in Fr; discriminate. }
  destruct m1 as [m1|]; [|injection E as <- <-; discriminate].
  destruct r1 as [r1|]; [now apply Fl in E|].
  destruct (m_next M m1) as [[m2 r]|]; [|injection E as <- <-; discriminate].
  destruct r as [e| |b|e]; try (injection E as <- <-; discriminate).
  - destruct (sync_output T fuel s1 []) as [s2 [e|]] eqn:E1; [now apply Fl in E|].
    injection E as <- <-. exists l1, MNeedMore, []. auto.
  - destruct (sync_output T fuel s1 b) as [s2 [e|]] eqn:E1; [now apply Fl in E|].
    injection E as <- <-. exists l1, (MOutput b), []. split; [reflexivity|]. split; [reflexivity|]. right.
    cbn in Fr. unfold next_await in Fr. destruct (x_wbuf s2) eqn:W2; [|discriminate].
    pose proof (sync_output_R T M fuel peer R Law _ _ _ _ [XNext (MOutput b)] H1 E1 eq_refl
      (app_nil_r b)) as (t2 & _ & _ & P2).
    destruct H1 as (t1 & Ht1 & _ & P1).
    unfold sync_output in E1. rewrite Ht1 in E1.
    destruct (encrypt T fuel t1 (x_wbuf s1) b) as [[t3 wb] r3] eqn:En.
    destruct r3 as [u| | |]; try discriminate. injection E1 as <-. cbn in W2. subst wb.
    apply encrypt_grows in En as (k & En). symmetry in En. apply app_eq_nil in En as [W1 _].
    rewrite W1, app_nil_r in P1. cbn in P2. rewrite app_nil_r, xwritten_app in P2. cbn in P2.
    rewrite app_nil_r, P1, (xoutputs_app (l ++ l1)) in P2. cbn in P2. rewrite app_nil_r in P2.
    rewrite <- (app_nil_r (xoutputs (l ++ l1))) in P2 at 1. apply app_inv_head in P2. now subst b.
Qed.

Lemma tls_last_next : forall t0 m acts x l, R t0 [] [] -> peer [] = [] ->
  xrun T M fuel (XState (stream_tls T t0) m FIdle) acts = (x, l) ->
  no_error l -> x_f x = FRead -> last_next M l.
Proof.
  intros t0 m acts x l H0 H1 E. revert x l E.
  enough (G : forall x l, xrun T M fuel (XState (stream_tls T t0) m FIdle) acts = (x, l) ->
    sinv T M peer R x l /\ (no_error l -> x_f x = FRead -> last_next M l))
    by (intros x l E; now apply (G x l E)).
  intros x l. eapply (xrun_ind T M fuel (fun x l => sinv T M peer R x l /\
    (no_error l -> x_f x = FRead -> last_next M l))).
  - split; [|discriminate]. split; [|exact I]. intros _ _. exists t0. cbn. auto.
  - clear -Law. intros x l a x' l' [[S A] N] E. split; [eapply xstep_sinv; eauto; split; auto|].
    intros He Fr. apply no_error_app in He as [He He'].
    assert (Hx : x_f x <> FDead).
    { intro F. rewrite (xstep_dead _ _ _ x a F) in E. injection E as <- <-. congruence. }
    specialize (S He Hx).
    destruct (read_from_sync _ _ _ _ E Fr) as [[-> ->]|(h & l0 & s1 & -> & Es & Hh)].
    + rewrite app_nil_r. auto.
    + change (h :: l0) with ([h] ++ l0). rewrite app_assoc. apply last_next_app.
      eapply (sync_last s1 _ _ _ (l ++ [h])); eauto.
      * destruct S as (t & S1 & S2 & S3). exists t. rewrite xwritten_app, xoutputs_app.
        destruct Hh as [(-> & ->)|[(b & -> & ->)|(-> & ->)]]; cbn; rewrite ?app_nil_r; auto.
      * destruct He' as (F1 & F2).
        destruct Hh as [(-> & _)|[(? & -> & _)|(-> & _)]]; split; auto.
Qed.
End LastNext.

(** ** Conversations *)

Section Talk.
Context (K : Codecs) (relaxed : bool) (o : soptions) (gc gs : hgen) (gr : greeting) (T1 T2 : tls).
Notation CM := (client_machine K).
Notation SM := (server_machine K).
Notation talk := (@talk K relaxed o gc gs gr T1 T2).

Record talk_facts (z : net T1 T2 CM SM) (L : list (nlog CM SM)) : Prop := {
  tf_c : call_run CM (client_new gc relaxed) (calls (lefts L)) = Some (x_m (n_l z), call_entries (lefts L));
  tf_s : call_run SM (server_new gs o gr) (calls (rights L)) = Some (x_m (n_r z), call_entries (rights L));
  tf_causal : causal L;
  tf_pc : paired CM (lefts L);
  tf_ps : paired SM (rights L);
  tf_out : at_rest z -> xoutputs (lefts L) = xgiven (rights L) /\ xoutputs (rights L) = xgiven (lefts L);
  tf_lc : x_f (n_l z) = FRead -> last_next CM (lefts L);
  tf_ls : x_f (n_r z) = FRead -> last_next SM (rights L)
}.

Lemma awaits_run : forall T M fuel s m acts x l, xrun T M fuel (XState s m FIdle) acts = (x, l) ->
  awaits T M x.
Proof.
  intros T M fuel s m acts x l E. apply (xrun_ind T M fuel (fun x _ => awaits T M x)) in E; auto.
  - exact I.
  - intros. eapply xstep_awaits; eauto.
Qed.

Lemma read_empty : forall T M (x : xstate T M), awaits T M x -> x_f x = FRead -> x_wbuf (x_s x) = [].
Proof. intros T M x A F. unfold awaits in A. now rewrite F in A. Qed.

Lemma link_nil : forall Ta Tb ta tb peer R dec, tls_link Ta Tb ta tb peer R dec -> peer [] = [].
Proof. intros Ta Tb ta tb peer R dec Lk. destruct (tk_ready _ _ _ _ _ _ _ Lk) as [_ H]. now rewrite <- (tk_same _ _ _ _ _ _ _ Lk). Qed.

Lemma talk_has : forall z L, talk z L -> talk_facts z L.
Proof.
  intros z L [fuel acts E|fuel acts t1 t2 peer1 R1 dec1 peer2 R2 dec2 Lk1 Lk2 E N1 N2 D1 D2].
  - destruct (net_projects _ _ _ _ _ _ _ _ _ _ _ _ E) as [(a1 & H1) (a2 & H2)].
    pose proof (net_plain _ _ _ _ _ _ _ _ _ _ E) as [P1 P2].
    split.
    + eapply stream_runs_state; eauto.
    + eapply stream_runs_state; eauto.
    + eapply net_plain_causal; eauto.
    + eapply xrun_paired; eauto.
    + eapply xrun_paired; eauto.
    + intros (Q1 & Q2 & F1 & F2). rewrite P1, P2, Q1, Q2.
      rewrite (read_empty _ _ _ (awaits_run _ _ _ _ _ _ _ _ H1) F1).
      rewrite (read_empty _ _ _ (awaits_run _ _ _ _ _ _ _ _ H2) F2).
      destruct (plain_read_buffer _ _ _ _ _ _ _ H1) as [-> _]; [congruence|].
      destruct (plain_read_buffer _ _ _ _ _ _ _ H2) as [-> _]; [congruence|].
      cbn. now rewrite !app_nil_r.
    + eapply waiting_last_next; eauto.
    + eapply waiting_last_next; eauto.
  - destruct (net_projects _ _ _ _ _ _ _ _ _ _ _ _ E) as [(a1 & H1) (a2 & H2)].
    assert (W : well T1 T2 CM SM z L) by (repeat split; auto; try apply N1; apply N2).
    pose proof (net_tls _ _ _ _ _ _ _ _ _ _ _ _ _ Lk1 Lk2 _ _ _ _ _ E W) as (P1 & P2 & P3 & P4).
    split.
    + eapply stream_runs_state; eauto.
    + eapply stream_runs_state; eauto.
    + eapply (net_tls_causal _ _ _ _ _ _ _ _ _ _ _ _ _ Lk1 Lk2); eauto.
    + eapply xrun_paired; eauto.
    + eapply xrun_paired; eauto.
    + intros (Q1 & Q2 & F1 & F2). rewrite P1, P2, P3, P4, Q1, Q2.
      rewrite (read_empty _ _ _ (awaits_run _ _ _ _ _ _ _ _ H1) F1).
      rewrite (read_empty _ _ _ (awaits_run _ _ _ _ _ _ _ _ H2) F2).
      cbn. now rewrite !app_nil_r.
    + eapply (tls_last_next _ _ _ _ _ (tk_sends _ _ _ _ _ _ _ Lk1)); eauto;
        [apply (tk_sent _ _ _ _ _ _ _ Lk1)|eapply link_nil; eauto].
    + eapply (tls_last_next _ _ _ _ _ (tk_sends _ _ _ _ _ _ _ Lk2)); eauto;
        [apply (tk_sent _ _ _ _ _ _ _ Lk2)|eapply link_nil; eauto].
Qed.

(** The direct connection with the same log. *)
Lemma talk_joint : forall z L, talk_facts z L ->
  exists acts y l, yran K relaxed gc gs o gr acts y l /\
    same_talk L (x_m (n_l z)) (x_m (n_r z)) y l.
Proof. intros z L []. now apply joint_run. Qed.

Lemma same_shown : forall z L c s y l, talk_facts z L -> same_talk L c s y l ->
  clogs (app_log L) = clogs (fy l) /\ slogs (app_log L) = slogs (fy l).
Proof.
  intros z L c s y l F S. rewrite clogs_app_log, slogs_app_log, shown_clogs, shown_slogs. split.
  - apply client_app_shown; [apply (tf_pc _ _ F)|apply (st_clogs _ _ _ _ _ S)].
  - apply server_app_shown; [apply (tf_ps _ _ F)|apply (st_slogs _ _ _ _ _ S)].
Qed.

Lemma lift_orderly : forall acts y l L, yran K relaxed gc gs o gr acts y l ->
  clogs (app_log L) = clogs (fy l) -> slogs (app_log L) = slogs (fy l) ->
  orderly K relaxed o gr (@app_log K L) -> own_roundtrips K relaxed o (app_log L) ->
  orderly K relaxed o gr l.
Proof.
  intros acts y l L Y E1 E2 O Own.
  destruct (sys_run_new K relaxed o gc gs gr _ _ _ Y) as (z & St & _).
  apply (orderly_lift K relaxed o gc gs gr _ _ St).
  - eapply orderly_parts; eauto.
  - eapply own_parts; [|exact Own]. now rewrite E1.
Qed.

(** *** The client asks again *)

Lemma client_out : forall s s' b, cs_next K s = (s', CsOutput b) -> b <> [].
Proof.
  assert (P : forall q m s' b, cs_progress q m = (s', CsOutput b) -> b <> []).
  { intros q m s' b H. unfold cs_progress in H. destruct (cm_push_to_buffer m) as [out m1].
    destruct out; [destruct (cm_finish_sending m1); discriminate|]. injection H as _ <-. discriminate. }
  intros s s' b H. unfold cs_next in H. destruct (cs_current s); [eauto|].
  destruct (cs_queue s) as [|[h c] q]; [discriminate|]. destruct (queued_start K h c); [eauto|discriminate].
Qed.

Lemma anext_out : forall a g b a', anext K relaxed a g (IOutput b) a' -> b <> [].
Proof.
  intros a g b a' H. remember (@IOutput cevent cerror b) as r eqn:E.
  induction H as [a r a' H|a m r a' H|a m a1 g r a' H _ IH|a a' H]; subst; try discriminate; auto;
    inversion H; subst. eapply client_out; eauto.
Qed.

Lemma anext_again : forall a g a', anext K relaxed a g INeedMore a' -> anext K relaxed a' [] INeedMore a'.
Proof.
  intros a g a' H. remember (@INeedMore cevent cerror) as r eqn:E.
  induction H as [a r a' H|a m r a' H|a m a1 g r a' H _ IH|a a' H]; subst; try discriminate; auto;
    inversion H; subst.
  apply an_send. rewrite quiesce_idem. assumption.
Qed.

Lemma client_asks : forall c1 c r, (exists a, crel K relaxed c1 a) ->
  m_next CM c1 = Some (c, r) -> r = MNeedMore \/ r = MOutput [] ->
  exists c', client_next K c = (c', [], INeedMore).
Proof.
  intros c1 c r (a & Ha) N Hr. cbn -[client_next] in N. destruct (client_next K c1) as [[c' g] r'] eqn:E.
  destruct (client_next_sim K relaxed _ _ _ _ _ Ha E) as (a' & A & _ & _ & R).
  assert (r' = INeedMore /\ c' = c) as [-> ->].
  { destruct r'; cbn in N; try discriminate; inversion N; subst; destruct Hr as [Hr|Hr]; try discriminate; auto.
    injection Hr as ->. exfalso. now apply (anext_out _ _ _ _ A). }
  assert (R' : crel K relaxed c a') by (apply R; discriminate).
  destruct (client_next K c) as [[c2 g2] r2] eqn:E2.
  destruct (ClientDet.client_next_det _ _ _ _ _ _ _ _ _ _ R' (anext_again _ _ _ A) E2) as (-> & -> & _).
  eauto.
Qed.

(** *** The server asked, or asks again *)

Lemma quiet_none : forall s s1, quiet s = Some s1 -> ss_current s1 = None.
Proof.
  intros s s1 H. unfold quiet in H. destruct (ss_current s) as [[|[|] ?]|] eqn:E; try discriminate.
  - now injection H as <-.
  - destruct (ss_queue s); [|discriminate]. now injection H as <-.
Qed.

Lemma xnext_again : forall x g x', xnext K o x g INeedMore x' ->
  g = [] \/ xnext K o x' [] INeedMore x'.
Proof.
  intros x g x' H.
  enough (G : (g = [] \/ xnext K o x' [] INeedMore x') /\
    (ss_current (x_send x) = None -> xnext K o x' [] INeedMore x')) by apply G.
  remember (@INeedMore sevent serror) as r eqn:E.
  induction H as [x g r x' H|x i x1 g r x' H H2 IH|x x' H]; subst; try discriminate.
  - assert (g = []).
    { destruct g as [|m g]; [reflexivity|]. exfalso. cbn in H.
      remember (SlRx m :: map SlRx g ++ [SlNext INeedMore]) as k eqn:Ek.
      destruct H as [? ? ? ? C| | | | |? ? ? ? v|]; try discriminate.
      - destruct (ServerProps.xcall_label _ _ _ _ C) as [_ X]. injection Ek as -> _. now eapply X.
      - destruct g; discriminate.
      - destruct g as [|? [|]]; try discriminate. injection Ek as _ Ek.
        destruct v as [c| | | | | |]; discriminate.
      - destruct g as [|? [|]]; discriminate. }
    subst g. split; [now left|]. intro C. cbn in H.
    inversion H as [? ? ? ? X| | |? s1 Q W| | |]; subst.
    + destruct (ServerProps.xcall_label _ _ _ _ X) as [X2 _]. exfalso. now eapply X2.
    + apply xn_last. cbn.
      replace (x_set_send x s1) with (x_set_send (x_set_send x s1) s1) at 2 by reflexivity.
      apply x_need_more; [|exact W]. cbn. unfold quiet in Q |- *. rewrite C in Q.
      destruct (ss_queue (x_send x)) eqn:Eq; [|discriminate]. injection Q as <-. now rewrite C, Eq.
  - assert (X : xnext K o x' [] INeedMore x'); [|auto].
    apply (IH eq_refl). inversion H as [? ? ? ? X| | | |? s1 ? ? ? ? ? Q| |]; subst; cbn.
    + destruct (ServerProps.xcall_label _ _ _ _ X) as [_ X2]. exfalso. now eapply X2.
    + eapply quiet_none; eauto.
Qed.

Lemma server_asks : forall s1 s, (exists x, srel K o s1 x) -> m_next SM s1 = Some (s, MNeedMore) ->
  server_next K s1 = (s, [], INeedMore) \/ exists s', server_next K s = (s', [], INeedMore).
Proof.
  intros s1 s (x & Hx) N. cbn -[server_next] in N. destruct (server_next K s1) as [[s' g] r'] eqn:E.
  destruct (server_next_sim K o _ _ _ _ _ Hx E) as (x' & A & _ & _ & R).
  assert (r' = INeedMore /\ s' = s) as [-> ->].
  { destruct r'; cbn in N; try discriminate; inversion N; subst; auto. }
  destruct (xnext_again _ _ _ A) as [->|A2]; [now left|right].
  assert (R' : srel K o s x') by (apply R; discriminate).
  destruct (server_next K s) as [[s2 g2] r2] eqn:E2.
  destruct (ServerDet.server_next_det _ _ _ _ _ _ _ _ _ _ R' A2 E2) as (-> & -> & _).
  eauto.
Qed.

Lemma server_out : forall acts y l, yran K relaxed gc gs o gr acts y l -> orderly K relaxed o gr l ->
  ~ In (SlNext (IOutput [])) (slogs l).
Proof.
  intros acts y l Y O Hin.
  destruct (sys_run_new K relaxed o gc gs gr _ _ _ Y) as (z & St & _).
  pose proof (ServerInv.sinv_steps K o gs gr _ _ (zsteps_xsteps K relaxed o _ _ _ St)) as I1.
  destruct (sent_spec K o gr _ _ I1) as [A1 A2].
  assert (H : In [] (souts (slogs l))).
  { clear -Hin. induction (slogs l) as [|e k IH]; [contradiction|].
    destruct Hin as [->|Hin]; [now left|]. specialize (IH Hin).
    destruct e as [| | | | | | |[]|]; cbn; auto. }
  rewrite A1 in H. apply in_map_iff in H as (m & Em & Hm).
  assert (Hs : In m (scheduled o gr (slogs l))) by (rewrite A2; apply in_or_app; now left).
  apply (or_msgs _ _ _ _ _ O) in Hs. destruct m as [g|h r]; destruct Hs as (ls & Hs);
    apply scan_nonempty in Hs; cbn in Em; rewrite Em in Hs; cbn in Hs; lia.
Qed.

(** *** Dropping the last call *)

Lemma paired_drop : forall M r (l2 l1 : list (xlog M)), r = MNeedMore \/ (exists b, r = MOutput b) ->
  paired M (l1 ++ XNext r :: l2) -> paired M (l1 ++ l2).
Proof.
  intros M r l2 l1 Hr P. remember (l1 ++ XNext r :: l2) as l eqn:E. revert l1 E.
  induction P as [|e l P IH|e l P IH|e l H P IH]; intros l1 E.
  - destruct l1; discriminate.
  - destruct l1 as [|a [|b l1]]; cbn in E.
    + injection E as <- <-. destruct Hr as [Hr|(b & Hr)]; discriminate.
    + discriminate.
    + injection E as <- <- ->. constructor. apply IH. reflexivity.
  - destruct l1 as [|a [|b l1]]; cbn in E.
    + injection E as <- <-. destruct Hr as [Hr|(b & Hr)]; discriminate.
    + discriminate.
    + injection E as <- <- ->. cbn. constructor. apply IH. reflexivity.
  - destruct l1 as [|a l1]; cbn in E.
    + injection E as -> ->. exact P.
    + injection E as <- ->. constructor; [exact H|]. apply IH. reflexivity.
Qed.

Lemma rights_split : forall (L : list (nlog CM SM)) l1 e l2, rights L = l1 ++ e :: l2 ->
  exists La Lb, L = La ++ NR e :: Lb /\ rights La = l1 /\ rights Lb = l2.
Proof.
  induction L as [|[x|x] L IH]; intros l1 e l2 H; cbn in H.
  - destruct l1; discriminate.
  - apply IH in H as (La & Lb & -> & H1 & H2). exists (NL x :: La), Lb. auto.
  - destruct l1 as [|y l1]; cbn in H.
    + injection H as -> <-. exists [], L. auto.
    + injection H as -> H. apply IH in H as (La & Lb & -> & H1 & H2). exists (NR y :: La), Lb.
      cbn. split; [reflexivity|]. split; congruence.
Qed.

Lemma causal_drop : forall La Lb, @causal CM SM (La ++ NR (XNext MNeedMore) :: Lb) -> causal (La ++ Lb).
Proof.
  intros La Lb C l1 l2 E. destruct (app_eq_app _ _ _ _ E) as (k & [[-> ->]|[-> ->]]).
  - apply (C l1 (k ++ NR (XNext MNeedMore) :: Lb)). now rewrite <- app_assoc.
  - destruct (C (La ++ NR (XNext MNeedMore) :: k) l2) as [C1 C2]; [now rewrite <- app_assoc|].
    rewrite !lefts_app, !rights_app in *. cbn [lefts rights] in *.
    rewrite !xgiven_app, !xoutputs_app in *. cbn in C1, C2. auto.
Qed.

(** *** At rest *)

Lemma call_split : forall M m m' (l1 : list (xlog M)) r l2, calls l2 = [] ->
  call_run M m (calls (l1 ++ XNext r :: l2)) = Some (m', call_entries (l1 ++ XNext r :: l2)) ->
  exists m1, call_run M m (calls l1) = Some (m1, call_entries l1) /\ m_next M m1 = Some (m', r).
Proof.
  intros M m m' l1 r l2 Hl H.
  assert (E2 : call_entries l2 = []) by now apply no_calls_entries.
  assert (H' : call_run M m (calls (l1 ++ [XNext r])) = Some (m', call_entries (l1 ++ [XNext r]))).
  { rewrite StreamState.calls_app, StreamState.call_entries_app in *. cbn [calls call_entries] in *.
    rewrite Hl, E2 in H. exact H. }
  apply call_run_snoc in H' as (m1 & H1 & H2). exists m1. split; [exact H1|]. cbn in H2.
  destruct (m_next M m1) as [[m2 r2]|]; [|discriminate]. congruence.
Qed.

Lemma talk_rest : forall z L, talk z L -> at_rest z ->
  orderly K relaxed o gr (app_log L) -> own_roundtrips K relaxed o (app_log L) ->
  exists acts y l, yran K relaxed gc gs o gr acts y l /\ waiting K y /\
    orderly K relaxed o gr l /\
    clogs (app_log L) = clogs (fy l) /\ slogs (app_log L) = slogs (fy l).
Proof.
  intros z L Tk Rs Ord Own. apply talk_has in Tk as F.
  destruct (tf_out _ _ F Rs) as [Q1 Q2]. destruct Rs as (_ & _ & F1 & F2).
  (* the client *)
  destruct (tf_lc _ _ F F1) as (c1l & rc & c2l & Ec & Hc2 & Hrc).
  pose proof (tf_c _ _ F) as Cc. rewrite Ec in Cc. apply call_split in Cc as (c1 & Cc1 & Cn); [|exact Hc2].
  assert (Hc : exists c', client_next K (x_m (n_l z)) = (c', [], INeedMore)).
  { eapply client_asks; eauto. apply client_call_run in Cc1 as (lc & Cr & _).
    apply client_run_new in Cr as (a & _ & Ha). eauto. }
  (* the server *)
  destruct (talk_joint _ _ F) as (acts & y & l & Y & Sm).
  destruct (same_shown _ _ _ _ _ _ F Sm) as [Sh1 Sh2].
  pose proof (lift_orderly _ _ _ _ Y Sh1 Sh2 Ord Own) as O.
  destruct (tf_ls _ _ F F2) as (s1l & rs & s2l & Es & Hs2 & Hrs).
  assert (rs = MNeedMore).
  { destruct Hrs as [->|H]; [reflexivity|]. exfalso. subst rs. apply (server_out _ _ _ Y O).
    pose proof (st_slogs _ _ _ _ _ Sm) as V. rewrite Es, StreamState.call_entries_app in V.
    assert (Hin : In (@XNext SM (MOutput [])) (flat_map server_view (slogs l))).
    { rewrite V. apply in_or_app. right. now left. }
    apply in_flat_map in Hin as (e & He & Hv).
    destruct e as [| | | | | | |r|]; cbn in Hv; try (destruct Hv as [Hv|[]]; discriminate); try contradiction.
    destruct r; cbn in Hv; try contradiction; destruct Hv as [Hv|[]]; try discriminate.
    injection Hv as ->. exact He. }
  subst rs. clear Hrs. pose proof (tf_s _ _ F) as Cs. rewrite Es in Cs.
  apply call_split in Cs as (s1 & Cs1 & Sn); [|exact Hs2].
  assert (Hx : exists x, srel K o s1 x).
  { apply server_call_run in Cs1 as (ls & Cr & _). apply server_run_new in Cr as (x & _ & Hx). eauto. }
  destruct (server_asks _ _ Hx Sn) as [Hs|Hs].
  - destruct (rights_split _ _ _ _ Es) as (La & Lb & EL & R1 & R2).
    assert (Hl : lefts (La ++ Lb) = lefts L) by (rewrite EL, !lefts_app; reflexivity).
    assert (Hr : rights (La ++ Lb) = s1l ++ s2l) by (rewrite rights_app, R1, R2; reflexivity).
    destruct (joint_run K relaxed o gc gs gr (La ++ Lb) (x_m (n_l z)) s1) as (acts' & y' & l' & Y' & Sm').
    + rewrite Hl. apply (tf_c _ _ F).
    + rewrite Hr, StreamState.calls_app, StreamState.call_entries_app, Hs2, (no_calls_entries _ _ Hs2), !app_nil_r.
      exact Cs1.
    + apply causal_drop. rewrite <- EL. apply (tf_causal _ _ F).
    + assert (A1 : clogs (app_log L) = clogs (fy l')).
      { rewrite clogs_app_log, shown_clogs. apply client_app_shown; [apply (tf_pc _ _ F)|].
        rewrite <- Hl. apply (st_clogs _ _ _ _ _ Sm'). }
      assert (A2 : slogs (app_log L) = slogs (fy l')).
      { rewrite slogs_app_log, shown_slogs. transitivity (flat_map server_app (s1l ++ s2l)).
        { rewrite Es, !flat_map_app. reflexivity. }
        apply server_app_shown.
        - apply (paired_drop SM MNeedMore); [now left|]. rewrite <- Es. apply (tf_ps _ _ F).
        - rewrite <- Hr. apply (st_slogs _ _ _ _ _ Sm'). }
      pose proof (lift_orderly _ _ _ _ Y' A1 A2 Ord Own) as O'.
      exists acts', y', l'. split; [exact Y'|]. split; [|auto].
      destruct Sm' as [S1 S2 _ _ S5 S6]. rewrite Hl, Hr in *. rewrite Es in Q1, Q2.
      rewrite !xgiven_app, !xoutputs_app in *. cbn in Q1, Q2.
      split; [|split; [|split]].
      * rewrite Q1 in S5. rewrite <- (app_nil_r (_ ++ _)) in S5 at 1. now apply app_inv_head in S5.
      * rewrite Q2 in S6. rewrite <- (app_nil_r (xgiven _)) in S6 at 1. now apply app_inv_head in S6.
      * now rewrite S1.
      * rewrite S2. eauto.
  - exists acts, y, l. split; [exact Y|]. split; [|auto].
    destruct Sm as [S1 S2 _ _ S5 S6].
    split; [|split; [|split]].
    + rewrite Q1 in S5. rewrite <- (app_nil_r (xgiven _)) in S5 at 1. now apply app_inv_head in S5.
    + rewrite Q2 in S6. rewrite <- (app_nil_r (xgiven _)) in S6 at 1. now apply app_inv_head in S6.
    + now rewrite S1.
    + now rewrite S2.
Qed.
End Talk.
