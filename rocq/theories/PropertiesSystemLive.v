(** Properties of a client connected to a server whose applications are passive (C50, C51).
    Vocabulary: SpecSystem.v and SpecSystemLive.v. *)
From Coq Require Import List NArith Bool PeanoNat.
From Coq Require String.
Import (notations) String.
From Verif Require Import Base Types Codec Handle Receive ServerSend ClientSend Client Server
  SpecFraming SpecClient SpecServer System SpecSystem SpecSystemLive ToyCodec ToyLaws
  ClientExamples ServerExamples SystemExamples SystemLog SystemLive SystemSettle.
Import ListNotations.
Open Scope list_scope.
Open Scope nat_scope.

(** ** C50 *)

(** In the composition each side runs as it does alone: all theorems about runs of a client
    and about runs of a server apply to the two parts of the log. *)
Theorem C50_alone : forall K relaxed o gc gs gr acts y l,
  yran K relaxed gc gs o gr acts y l ->
  exists cops sops,
    client_run K (client_new gc relaxed) cops = (Some (y_client y), clogs l) /\
    server_run K (server_new gs o gr) sops = (Some (y_server y), slogs l).
Proof.
  intros K relaxed o gc gs gr acts y l R.
  destruct (sys_projects _ _ _ _ _ R) as (rc & rs & Hc & Hs & -> & ->). eauto.
Qed.
Print Assumptions C50_alone.

(** Neither side panics. The assumptions are those of C09: decoders consume the whole
    message, and data for AUTHENTICATE and "DONE" are encoded as one line. *)
Theorem C50_no_panic : forall K relaxed o gc gs gr,
  no_trailing K relaxed -> single_lines K -> sno_trailing K o ->
  forall acts, exists y l, yran K relaxed gc gs o gr acts y l.
Proof. intros K relaxed o gc gs gr NT SL ST. exact (sys_run_no_panic K relaxed o NT SL ST gc gs gr). Qed.
Print Assumptions C50_no_panic.

Example C50_example :
  (no_trailing toy false /\ single_lines toy /\ sno_trailing toy y_opts) /\
  length (clogs (yx_log y_opts acts_done)) = 59 /\ length (slogs (yx_log y_opts acts_done)) = 63.
Proof.
  split; [split; [apply toy_no_trailing|]; split; [apply toy_single_lines|apply toy_sno_trailing]|].
  vm_compute. auto.
Qed.

(** ** C51 *)

(** Without the applications, only finitely many things happen: there is no infinite
    sequence of calls of [next] and deliveries in which again and again bytes are delivered
    or [next] returns something else than the request for input. *)
Theorem C51_terminates : forall K relaxed o gc gs gr acts y l,
  yran K relaxed gc gs o gr acts y l -> (0 < so_max_command_size o)%N -> Acc (progress K) y.
Proof. exact terminates. Qed.
Print Assumptions C51_terminates.

(** [waiting_twice] is the state in which nothing can happen: *)
Theorem C51_waiting : forall K relaxed o gc gs gr acts y l,
  yran K relaxed gc gs o gr acts y l -> waiting_twice K y ->
  forall acts' y' l', Forall auto acts' -> sys_run K y acts' = (Some y', l') ->
  Forall idle_entry l' /\ waiting_twice K y'.
Proof. exact waiting_stops. Qed.
Print Assumptions C51_waiting.

(** in every other state, something can happen. *)
Theorem C51_moves : forall K relaxed o gc gs gr,
  no_trailing K relaxed -> single_lines K -> sno_trailing K o ->
  forall acts y l, yran K relaxed gc gs o gr acts y l ->
  waiting_twice K y \/ exists y', progress K y' y.
Proof.
  intros K relaxed o gc gs gr NT SL ST. exact (waits_or_moves K relaxed o NT SL ST gc gs gr).
Qed.
Print Assumptions C51_moves.

(** Hence every run can be continued, without the applications, to a run that ends in such a
    state. If the assumptions hold for what the applications have done, then there the
    server has read all requests, the client has reported the greeting and all responses, and the only
    unresolved commands wait behind an AUTHENTICATE or IDLE (see C29_turn). *)
Theorem C51_completes : forall K relaxed o gc gs gr,
  no_trailing K relaxed -> single_lines K -> sno_trailing K o ->
  forall acts y l, yran K relaxed gc gs o gr acts y l ->
  orderly K relaxed o gr l -> own_roundtrips K relaxed o l ->
  exists acts' y' l', Forall auto acts' /\
    yran K relaxed gc gs o gr (acts ++ acts') y' (l ++ l') /\ waiting_twice K y' /\
    orderly K relaxed o gr (l ++ l') /\
    Forall2 (read_as K o) (staken (slogs (l ++ l'))) (requests (clogs (l ++ l'))) /\
    greetings (events (clogs (l ++ l'))) = [gr] /\
    reported_all (events (clogs (l ++ l'))) = visible (scheduled o gr (slogs (l ++ l'))) /\
    (forall h c, oldest (clogs (l ++ l')) = Some (h, c) -> ~ regular c).
Proof.
  intros K relaxed o gc gs gr NT SL ST.
  exact (completes K relaxed o gc gs gr NT SL ST).
Qed.
Print Assumptions C51_completes.

(** LOGIN is enqueued, nothing was sent: the assumptions hold, and the rest, with permission
    for a literal, happens by itself. *)
Example C51_example :
  let acts := [YClient (CopEnqueueCommand ex_login)] in
  let acts' := skipn 1 acts_first ++ ys 2 ++ yc 2 in
  let l := yx_log y_opts acts in
  yran toy false ex_gen ygen_s y_opts ex_greeting acts (yx_sys y_opts acts) l /\
  orderly toy false y_opts ex_greeting l /\ own_roundtrips toy false y_opts l /\
  ~ waiting_twice toy (yx_sys y_opts acts) /\
  Forall auto acts' /\ waiting_twice toy (yx_sys y_opts (acts ++ acts')) /\
  progress toy (yx_sys y_opts (acts ++ acts')) (yx_sys y_opts acts) /\
  sreports (slogs (yx_log y_opts (acts ++ acts'))) = [IEvent (SeCommandReceived ex_login)].
Proof.
  cbv zeta. split; [vm_compute; reflexivity|]. split.
  { apply (orderly_app _ _ _ _ _ (skipn 1 (yx_log y_opts acts_done))).
    replace (_ ++ _) with (yx_log y_opts acts_done); [exact talk_orderly|]. vm_compute. reflexivity. }
  split.
  { split; [cbn [msg_roundtrips]; one_line|]. intros h c H.
    assert (E : c = ex_login).
    { remember (clogs (yx_log y_opts [YClient (CopEnqueueCommand ex_login)])) as lc eqn:E.
      vm_compute in E. subst lc. destruct H as [H|[]]. injection H as _ <-. reflexivity. }
    subst c. cbn [msg_roundtrips]. one_line. }
  split.
  { intros ((_ & _ & _ & s & H) & _). vm_compute in H. discriminate. }
  split; [repeat constructor|]. split.
  { split; [split; [vm_compute; reflexivity|]; split; [vm_compute; reflexivity|];
      split; eexists; vm_compute; reflexivity|].
    eexists; eexists; split; vm_compute; reflexivity. }
  split; [|vm_compute; reflexivity].
  exists (skipn 1 acts_first ++ ys 2 ++ yc 2).
  eexists. split; [repeat constructor|]. split; [vm_compute; reflexivity|].
  eexists. split; [left; reflexivity|]. cbn. tauto.
Qed.

(** With the limit 0 the server reports errors forever. *)
Definition y_zero : soptions := SOptions false 10 0 (B "go on") (B "too long").
Theorem C51_size_refuted :
  let y := yx_sys y_zero (ys 2) in
  yran toy false ex_gen ygen_s y_zero ex_greeting (ys 2) y (yx_log y_zero (ys 2)) /\
  progress toy y y.
Proof.
  split; [vm_compute; reflexivity|].
  exists (ys 1), (snd (sys_run toy (yx_sys y_zero (ys 2)) (ys 1))).
  split; [repeat constructor|]. split; [vm_compute; reflexivity|].
  exists (YS (SlNext (IError (SerrCommandTooLong [])))). split; [vm_compute; auto|auto].
Qed.
Print Assumptions C51_size_refuted.
