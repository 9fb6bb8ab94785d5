(** What the applications of a connected client and server can expect (C56). Vocabulary:
    SpecViews.v. *)
From Coq Require Import List NArith Bool PeanoNat.
From Coq Require String.
Import (notations) String.
From Verif Require Import Base Types Codec Handle Receive ServerSend ClientSend Client Server
  SpecFraming SpecClient SpecServer System SpecSystem SpecSystemLive SpecViews SystemViews ToyCodec
  ClientExamples ServerExamples SystemExamples Stream StreamMachine SpecStream
  Net SpecNet NetExamples NetViews.
Import ListNotations.
Open Scope list_scope.
Open Scope nat_scope.

(** Connected directly. If the server's application is polite, the client's application never
    sees a continuation request that is not for its AUTHENTICATE or IDLE; a tagged status is for
    a command that it enqueued, that has nothing more to send, and whose end it was told
    before; AUTHENTICATE does not end
    while it is asked for data; IDLE is not rejected after it was accepted. The server's
    application gets data for AUTHENTICATE only when it has asked for it. *)
Theorem C56_system : forall K relaxed gc gs o gr acts y l,
  yran K relaxed gc gs o gr acts y l -> orderly K relaxed o gr l ->
  all_expected (clogs l) /\ data_asked (slogs l).
Proof. exact system_views. Qed.
Print Assumptions C56_system.

(** The same in streams, with or without TLS. *)
Theorem C56_streams : forall K relaxed o gc gs gr T1 T2 z L,
  @talk K relaxed o gc gs gr T1 T2 z L ->
  orderly K relaxed o gr (app_log L) -> own_roundtrips K relaxed o (app_log L) ->
  all_expected (clogs (app_log L)) /\ data_asked (slogs (app_log L)).
Proof. exact net_views. Qed.
Print Assumptions C56_streams.

(** The conversation [n_script]: the client's application sees tagged statuses for
    commands that are finished, the end of AUTHENTICATE when no data is due, IDLE; the server's
    application got data for AUTHENTICATE after it asked for it. *)
Definition tagged_seen (l : list clog) : list tag :=
  flat_map (fun e => match e with CeStatusReceived (StTagged t _) => [t] | _ => [] end) (events l).

Example C56_example :
  talk false y_opts ex_gen ygen_s ex_greeting TL TL (n_end n_plain) (n_log n_plain) /\
  orderly toy false y_opts ex_greeting n_app /\ own_roundtrips toy false y_opts n_app /\
  tagged_seen (clogs n_app) = [B "A2"; B "A4"] /\
  In (SlNext (IEvent (SeAuthenticateDataReceived (ADContinue (B "secret"))))) (slogs n_app) /\
  existsb (fun e => match e with CeAuthenticateStatusReceived _ _ _ => true | _ => false end)
    (events (clogs n_app)) = true.
Proof.
  split; [exact n_talk_plain|]. split; [exact n_orderly|]. split; [exact n_own|].
  split; [vm_compute; reflexivity|]. split; [|vm_compute; reflexivity].
  remember (slogs n_app) as ls eqn:E. vm_compute in E. subst ls. cbn. tauto.
Qed.
