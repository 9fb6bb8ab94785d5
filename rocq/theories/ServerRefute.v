(** Where the code does not have the property one would like: witnesses. *)
From Coq Require Import List NArith Bool PeanoNat Lia.
From Coq Require String.
Import (notations) String.
From Verif Require Import Base Types Codec Handle Receive ServerSend Server SpecFraming
  SpecClient SpecServer SpecDrive ToyCodec ClientExamples ServerExamples.
Import ListNotations.
Open Scope list_scope.
Open Scope nat_scope.

(** ** Inversion of [sdrive], one step at a time *)
Section Inv.
  Variable K : Codecs.
  Variable app : list slog -> option sop.

  Lemma sdrive_inv_call : forall s xs h h' p s1 l, sdrive K app s xs h h' -> app h = Some p ->
    server_step K s p = (Some s1, l) -> h' = h \/ sdrive K app s1 xs (h ++ l) h'.
  Proof. intros s xs h h' p s1 l H Ha Hs. inversion H; subst; auto; try congruence. right. congruence. Qed.

  Lemma sdrive_inv_next : forall s xs h h' s1 g r, sdrive K app s xs h h' -> app h = None ->
    server_next K s = (s1, g, r) -> r <> INeedMore -> r <> IPanic ->
    h' = h \/ sdrive K app s1 xs (h ++ [SlNext r]) h'.
  Proof. intros s xs h h' s1 g r H Ha Hs H1 H2. inversion H; subst; auto; try congruence. right. congruence. Qed.

  Lemma sdrive_inv_feed : forall s x xs h h' s1 g s2, sdrive K app s (x :: xs) h h' -> app h = None ->
    server_next K s = (s1, g, INeedMore) -> server_enqueue_input s1 x = Val s2 ->
    h' = h \/ sdrive K app s2 xs h h'.
  Proof. intros s x xs h h' s1 g s2 H Ha Hs He. inversion H; subst; auto; try congruence. right. congruence. Qed.

  Lemma sdrive_extends : forall s xs h h', sdrive K app s xs h h' -> exists t, h' = h ++ t.
  Proof.
    induction 1 as [|? ? ? ? ? ? ? ? ? ? ? [t ->]| |? ? ? ? ? ? ? ? ? ? ? ? [t ->]| |? ? ? ? ? ? ? ? ? ? ? ? [t ->]];
      rewrite <- ?app_assoc; eauto. exists []. now rewrite app_nil_r.
  Qed.
End Inv.

(** ** C01: a response enqueued between the output of a literal acknowledgement and the
    following [next] is sent before or after the command is reported. *)
Definition rude_app (h : list slog) : option sop :=
  match h with
  | [SlNext (IOutput _); SlNext (IEvent (SeGreetingSent _)); SlNext (IOutput _)] =>
      Some (SopEnqueue (RData (DOther (B "1 EXISTS"))))
  | _ => None
  end.

Lemma chunking_refuted :
  exists K g o gr app xs ys h, concat xs = concat ys /\
    sdrive K app (server_new g o gr) xs [] h /\ ~ sdrive K app (server_new g o gr) ys [] h.
Proof.
  exists toy, ex_gen, ex_opts, ex_greeting, rude_app,
    [ln "A2 LOGIN {5}"; ln "alice"], [ln "A2 LOGIN {5}" ++ ln "alice"].
  eexists. split; [reflexivity|]. split.
  - do 2 (eapply sd_next; [reflexivity|vm_compute; reflexivity|discriminate|discriminate|]).
    eapply sd_feed; [reflexivity|vm_compute; reflexivity|reflexivity|].
    eapply sd_next; [reflexivity|vm_compute; reflexivity|discriminate|discriminate|].
    eapply sd_call; [reflexivity|exact I|vm_compute; reflexivity|].
    eapply sd_feed; [reflexivity|vm_compute; reflexivity|reflexivity|].
    eapply sd_next; [reflexivity|vm_compute; reflexivity|discriminate|discriminate|].
    apply sd_stop.
  - intro H.
    Ltac fin H := destruct H as [H|H]; [discriminate H|].
    eapply sdrive_inv_next in H; [|reflexivity|vm_compute; reflexivity|discriminate|discriminate]; fin H.
    eapply sdrive_inv_next in H; [|reflexivity|vm_compute; reflexivity|discriminate|discriminate]; fin H.
    eapply sdrive_inv_feed in H; [|reflexivity|vm_compute; reflexivity|reflexivity]; fin H.
    eapply sdrive_inv_next in H; [|reflexivity|vm_compute; reflexivity|discriminate|discriminate]; fin H.
    eapply sdrive_inv_call in H; [|reflexivity|vm_compute; reflexivity]; fin H.
    eapply sdrive_inv_next in H; [|reflexivity|vm_compute; reflexivity|discriminate|discriminate]; fin H.
    apply sdrive_extends in H as (t & H). discriminate.
Qed.

(** ** C06 *)
Definition idle_feed (n : nat) : list sop :=
  concat (repeat [SopEnqueueInput [CR]; SopNext] n).

Lemma idle_feed_run : forall n s x,
  s_recv s = SrIdleAccept x -> s_send s = ss_new ->
  exists s' x', server_run toy s (idle_feed n) =
      (Some s', concat (repeat [SlInput [CR]; SlNext INeedMore] n)) /\
    s_recv s' = SrIdleAccept x' /\ length (rs_buf x') = length (rs_buf x) + n.
Proof.
  induction n as [|n IH]; intros s x Hr Hs.
  - exists s, x. cbn. auto.
  - destruct s as [o g sd rc]. cbn in Hr, Hs. subst rc sd.
    destruct (IH (ServerSt o g ss_new (SrIdleAccept (rs_enqueue_input x [CR])))
      (rs_enqueue_input x [CR]) eq_refl eq_refl) as (s' & x' & E & Hr & Hb).
    exists s', x'. unfold idle_feed in *. cbn [repeat concat app server_run].
    change (server_step toy (ServerSt o g ss_new (SrIdleAccept x)) (SopEnqueueInput [CR]))
      with (Some (ServerSt o g ss_new (SrIdleAccept (rs_enqueue_input x [CR]))), [SlInput [CR]]).
    cbv beta iota.
    change (server_step toy (ServerSt o g ss_new (SrIdleAccept (rs_enqueue_input x [CR]))) SopNext)
      with (Some (ServerSt o g ss_new (SrIdleAccept (rs_enqueue_input x [CR]))),
            [SlNext INeedMore]).
    cbv beta iota. rewrite E. split; [reflexivity|]. split; [exact Hr|].
    rewrite Hb. cbn. rewrite app_length. cbn. lia.
Qed.

Definition idle_pending_ops : list sop :=
  snexts 3 ++ [SopEnqueueInput (ln "A4 IDLE")] ++ snexts 2.

Lemma server_run_app : forall K ops1 ops2 s s1 l1 r l2,
  server_run K s ops1 = (Some s1, l1) -> server_run K s1 ops2 = (r, l2) ->
  server_run K s (ops1 ++ ops2) = (r, l1 ++ l2).
Proof.
  induction ops1 as [|o ops1 IH]; intros ops2 s s1 l1 r l2 H1 H2; cbn in *.
  - injection H1 as -> <-. exact H2.
  - destruct (server_step K s o) as [[s'|] l]; [|discriminate].
    destruct (server_run K s' ops1) as [r' l'] eqn:E. injection H1 as -> <-.
    rewrite (IH _ _ _ _ _ _ E H2), app_assoc. reflexivity.
Qed.

Lemma app_split_at : forall {A} (pre tl l1 : list A) e l2, pre ++ tl = l1 ++ e :: l2 ->
  (exists l3, pre = l1 ++ e :: l3) \/ (exists l3, l1 = pre ++ l3 /\ tl = l3 ++ e :: l2).
Proof.
  induction pre as [|a pre IH]; intros tl l1 e l2 E; cbn in E.
  - right. exists l1. auto.
  - destruct l1 as [|b l1]; cbn in E; injection E as -> E.
    + left. eexists. reflexivity.
    + destruct (IH _ _ _ _ E) as [(l3 & ->)|(l3 & -> & ->)]; [left|right]; exists l3; auto.
Qed.

Lemma feed_after : forall n l1 x l2,
  concat (repeat [SlInput [CR]; SlNext INeedMore] n) = l1 ++ SlInput x :: l2 ->
  x = [CR] /\ (l1 = [] \/ exists l0, l1 = l0 ++ [SlNext INeedMore]).
Proof.
  induction n as [|n IH]; intros l1 x l2 E; cbn in E.
  - destruct l1; discriminate.
  - destruct l1 as [|a [|b l1]]; cbn in E.
    + injection E as <- _. auto.
    + discriminate.
    + injection E as <- <- E. destruct (IH _ _ _ E) as [-> [->|(l0 & ->)]]; split; auto; right.
      * exists [SlInput [CR]]. reflexivity.
      * exists (SlInput [CR] :: SlNext INeedMore :: l0). reflexivity.
Qed.

Lemma memory_refuted :
  forall n, exists K g o gr ops s l, sran K g o gr ops s l /\
    (forall l1 x l2, l = l1 ++ SlInput x :: l2 ->
       length x <= 10 /\ exists l0, l1 = l0 ++ [SlNext INeedMore]) /\
    so_max_command_size o = 40%N /\ n <= length (server_buf s).
Proof.
  intro n. exists toy, ex_gen, ex_opts, ex_greeting, (idle_pending_ops ++ idle_feed n).
  destruct (idle_feed_run n (sx_server ex_opts idle_pending_ops)
    (RState false (Some 40%N) (NfLine 0) 0 [])) as (s' & x' & E & Hr & Hb).
  1,2: vm_compute; reflexivity.
  exists s', (sx_log ex_opts idle_pending_ops ++ concat (repeat [SlInput [CR]; SlNext INeedMore] n)).
  split; [|split; [|split]].
  - apply (server_run_app _ _ _ _ (sx_server ex_opts idle_pending_ops)); [vm_compute; reflexivity|exact E].
  - intros l1 x l2 E1.
    destruct (app_split_at _ _ _ _ _ E1) as [(l3 & E2)|(l3 & -> & E2)].
    + vm_compute in E2.
      do 3 (destruct l1 as [|? l1]; [discriminate E2|injection E2; clear E2; intros E2 <-]).
      destruct l1 as [|? l1]; [injection E2 as <- _; split; [cbn; lia|eexists [_; _]; reflexivity]|].
      injection E2; clear E2; intros E2 <-.
      do 3 (destruct l1 as [|? l1]; [discriminate E2|injection E2; clear E2; intros E2 <-]).
      destruct l1; discriminate.
    + apply feed_after in E2 as [-> [->|(l0 & ->)]]; (split; [cbn; lia|]).
      * eexists [_; _; _; _; _; _]. reflexivity.
      * eexists (_ ++ l0). rewrite app_assoc. reflexivity.
  - reflexivity.
  - unfold server_buf. rewrite Hr. cbn. rewrite Hb. lia.
Qed.

(** ** C07 *)
Lemma need_more_refuted :
  exists K g o gr ops s l1 b,
    sran K g o gr ops s (l1 ++ [SlNext INeedMore]) /\ unsent o gr l1 <> [] /\
    snd (server_next K s) = IOutput b.
Proof.
  pose (ops := snexts 2 ++ [SopEnqueueInput (ln "A2 LOGIN {5}"); SopNext;
    SopEnqueue (RData (DOther (B "1 EXISTS"))); SopNext]).
  exists toy, ex_gen, ex_opts, ex_greeting, ops, (sx_server ex_opts ops),
    (firstn 6 (sx_log ex_opts ops)). eexists.
  split; [vm_compute; reflexivity|]. split; [vm_compute; discriminate|vm_compute; reflexivity].
Qed.

(** ** C08 *)
Definition zero_opts : soptions := SOptions false 10 0 (B "go on") (B "too long").

Lemma bounded_refuted :
  exists K g o gr ops s l, sran K g o gr ops s l /\
    forall n, exists s' l', server_run K s (repeat SopNext n) = (Some s', l') /\
      sresults l' = repeat (IError (SerrCommandTooLong [])) n.
Proof.
  exists toy, ex_gen, zero_opts, ex_greeting, (snexts 2), (sx_server zero_opts (snexts 2)),
    (sx_log zero_opts (snexts 2)).
  split; [vm_compute; reflexivity|].
  set (s := sx_server zero_opts (snexts 2)).
  assert (E : server_step toy s SopNext =
    (Some s, [SlRx (SrxMsg [] SvTooLong); SlNext (IError (SerrCommandTooLong []))]))
    by (vm_compute; reflexivity).
  clearbody s. induction n as [|n (s' & l' & R & H)]; cbn [repeat].
  - exists s, []. auto.
  - exists s'. eexists. cbn [server_run]. rewrite E, R. split; [reflexivity|].
    cbn. now rewrite H.
Qed.
