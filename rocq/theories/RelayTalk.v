(** Client, proxy and server: streams that are alive; the legs talk. *)
From Coq Require Import List NArith Bool PeanoNat Lia.
From Verif Require Import Base Types Codec Handle Receive ClientSend Client ServerSend Server
  SpecFraming SpecClient SpecServer ClientAbs System SystemAbs SpecSystem SpecSystemLive SystemResp
  Stream StreamMachine SpecStream StreamProofs StreamTls
  Net SpecNet NetProofs NetApp NetThms ProxyUtil Proxy SpecProxy ProxyFilter ProxyEffect ProxyProofs
  ProxyInv ProxyRuns Relay SpecRelay RelayProofs.
From Verif Require ClientInv.
Import ListNotations.

Section Dead.
Context (T : tls) (M : machine) (fuel : nat).

Lemma step_dead : forall (x : xstate T M) a x' l', xstep T M fuel x a = (x', l') ->
  x_f x <> FDead -> x_f x' = FDead -> In XPanic l' \/ In XHang l'.
Proof.
  assert (Io : forall (x : xstate T M) b x' l', xstep T M fuel x (io_act M b) = (x', l') ->
    x_f x <> FDead -> x_f x' = FDead -> In XPanic l' \/ In XHang l') by (intros; eapply io_dead; eauto).
  intros x a x' l' E N D. destruct a as [| |r|r|ok| |o].
  - exact (Io x IoPoll _ _ E N D).
  - cbn [xstep] in E.
    destruct (x_f x) eqn:Ef; try (apply pair_equal_spec in E as [<- <-]; congruence).
    destruct (start_flush T M fuel (x_s x) (x_m x)) as [y k] eqn:E1. apply pair_equal_spec in E as [<- <-].
    enough (In XPanic k \/ In XHang k) by (cbn; tauto).
    assert (F : forall s2 m2 l2 r, fail T M s2 m2 l2 r = (y, k) -> In XPanic k \/ In XHang k).
    { intros s2 m2 l2 r H1. unfold fail in H1.
      destruct r; apply pair_equal_spec in H1 as [<- <-]; try discriminate D; right; apply in_or_app; cbn; auto. }
    unfold start_flush in E1. destruct (x_tls (x_s x)) as [t|].
    + destruct (t_flush T t) as [t1|].
      * destruct (sync_output T fuel _ []) as [s2 [e|]]; [eapply F; eauto|].
        apply pair_equal_spec in E1 as [<- <-]. cbn in D. unfold flush_await in D. now destruct (x_wbuf s2).
      * apply pair_equal_spec in E1 as [<- <-]. discriminate.
    + apply pair_equal_spec in E1 as [<- <-]. cbn in D. unfold flush_await in D. now destruct (x_wbuf (x_s x)).
  - exact (Io x (IoRead r) _ _ E N D).
  - exact (Io x (IoWrite r) _ _ E N D).
  - cbn [xstep] in E.
    destruct (x_f x) eqn:Ef; try (apply pair_equal_spec in E as [<- <-]; congruence).
    destruct ok; apply pair_equal_spec in E as [<- <-]; discriminate.
  - apply cancel_step in E as (_ & _ & E & _). rewrite (E N) in D. discriminate.
  - cbn [xstep] in E.
    destruct (x_f x) eqn:Ef; try (apply pair_equal_spec in E as [<- <-]; congruence).
    destruct (m_call M (x_m x) o) as [[m e]|]; apply pair_equal_spec in E as [<- <-]; [discriminate|cbn; auto].
Qed.

Lemma run_alive : forall s m acts (x : xstate T M) l, xrun T M fuel (XState s m FIdle) acts = (x, l) ->
  alive l -> x_f x <> FDead.
Proof.
  intros s m acts x l. revert acts x l.
  apply (xrun_ind T M fuel (fun x l => alive l -> x_f x <> FDead)); [discriminate|].
  intros x l a x' l' IH E [A1 A2] D.
  assert (N : x_f x <> FDead) by (apply IH; split; intro; [apply A1|apply A2]; apply in_or_app; now left).
  destruct (step_dead _ _ _ _ E N D); [apply A1|apply A2]; apply in_or_app; now right.
Qed.
End Dead.

(** ** The legs talk *)

Lemma linked_talk : forall K relaxed o gc gs gr T1 T2 fuel (s1 : stream T1) (s2 : stream T2) z L,
  nran T1 T2 (client_machine K) (server_machine K) fuel
    (net_new T1 T2 (client_machine K) (server_machine K) s1 (client_new gc relaxed) s2 (server_new gs o gr)) z L ->
  linked s1 s2 L -> @talk K relaxed o gc gs gr T1 T2 z L.
Proof.
  intros K relaxed o gc gs gr T1 T2 fuel s1 s2 z L [acts R] [-> ->|t1 t2 p1 R1 d1 p2 R2 d2 -> -> Lk1 Lk2 N1 N2 A1 A2].
  - eapply talk_plain; eauto.
  - destruct (net_projects T1 T2 _ _ fuel _ _ _ _ _ _ _ R) as [[a1 X1] [a2 X2]].
    eapply talk_tls; eauto.
    + exact (run_alive _ _ _ _ _ _ _ _ X1 A1).
    + exact (run_alive _ _ _ _ _ _ _ _ X2 A2).
Qed.

Lemma alive_app : forall M (l1 l2 : list (xlog M)), alive (l1 ++ l2) -> alive l1.
Proof. intros M l1 l2 [A1 A2]. split; intro; [apply A1|apply A2]; apply in_or_app; now left. Qed.

Lemma linked_app : forall T1 T2 (s1 : stream T1) (s2 : stream T2) M1 M2 (l1 l2 : list (nlog M1 M2)),
  linked s1 s2 (l1 ++ l2) -> linked s1 s2 l1.
Proof.
  intros T1 T2 s1 s2 M1 M2 l1 l2 [-> ->|t1 t2 p1 R1 d1 p2 R2 d2 -> -> Lk1 Lk2 N1 N2 A1 A2].
  - now apply linked_plain.
  - rewrite lefts_app in N1, A1. rewrite rights_app in N2, A2.
    apply no_error_app in N1 as [N1 _]. apply no_error_app in N2 as [N2 _].
    apply alive_app in A1. apply alive_app in A2.
    eapply linked_tls; eauto.
Qed.

(** ** The greeting *)

Lemma net_greeting : forall K relaxed o gc gs gr T1 T2 z L,
  @talk K relaxed o gc gs gr T1 T2 z L ->
  orderly K relaxed o gr (app_log L) -> own_roundtrips K relaxed o (app_log L) ->
  forall g, In (CeGreetingReceived g) (events (clogs (app_log L))) -> g = gr.
Proof.
  intros K relaxed o gc gs gr T1 T2 z L Tk Ord Own g H.
  destruct (net_greeted K relaxed o gc gs gr T1 T2 z L Tk Ord Own) as (rest & E).
  assert (I : In g (greetings (events (clogs (app_log L))))).
  { unfold greetings. apply in_flat_map. eexists. split; [exact H|]. now left. }
  assert (X : In g [gr]) by (rewrite E; apply in_or_app; now left). destruct X as [X|[]]. now symmetry.
Qed.
