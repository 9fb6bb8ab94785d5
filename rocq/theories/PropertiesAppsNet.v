(** Example clients connected to the example servers made for them (C66). Vocabulary:
    SpecApps.v, SpecNet.v. *)
From Coq Require Import List NArith Bool PeanoNat Lia.
From Coq Require String.
Import (notations) String.
From Verif Require Import Base Types Codec Handle Receive ServerSend ClientSend Client Server
  SpecFraming SpecClient SpecServer ClientThms ToyCodec ToyLaws ClientExamples ServerExamples
  System SpecSystem SystemExamples SpecSystemLive
  Stream StreamMachine SpecStream StreamState ToyTls Net SpecNet NetProofs NetApp NetLive NetExamples
  Apps SpecApps AppsProofs AppsNet AppsPairs AppsLive AppsExamples.
Import ListNotations.
Open Scope list_scope.

(** ** C66 *)

(** Each pair of programs meets the assumptions of the theorems about connected streams (the
    server follows the protocol; C53 to C56). *)
Theorem C66_orderly : forall K relaxed o gc gs gr T1 T2 z L,
  (forall login stc sts, let cmd := login_command login in
     agreed K relaxed o gr cmd [no_to cmd] [] ->
     runs (client_rs K login) (server_rs K) relaxed o gc gs gr T1 T2 z L stc sts ->
     orderly K relaxed o gr (app_log L) /\ own_roundtrips K relaxed o (app_log L)) /\
  (forall t stc sts,
     agreed K relaxed o gr (login_mechanism t) (authenticate_texts t) authenticate_answers ->
     runs (client_authenticate_rs K t) (server_authenticate_rs K) relaxed o gc gs gr T1 T2 z L stc sts ->
     orderly K relaxed o gr (app_log L) /\ own_roundtrips K relaxed o (app_log L)) /\
  (forall expunge stc sts,
     agreed K relaxed o gr a1_idle (idle_texts expunge) [] ->
     runs (client_idle_rs K) (server_idle_rs K expunge) relaxed o gc gs gr T1 T2 z L stc sts ->
     orderly K relaxed o gr (app_log L) /\ own_roundtrips K relaxed o (app_log L)).
Proof.
  intros K relaxed o gc gs gr T1 T2 z L. split; [|split].
  - intros login stc sts cmd Ag (Tk & S1 & S2).
    exact (pair_orderly K relaxed o gc gs gr T1 T2 _ _ cmd _ _ Ag
      (login_fine _ _ _ _ _ _ _ _ login) (login_nice _ _ _ _ _ _ _ _ login)
      (login_says _ _ _ _ _ _ _ _ login) z L Tk (conj (ex_intro _ _ S1) (ex_intro _ _ S2))).
  - intros t stc sts Ag (Tk & S1 & S2).
    exact (pair_orderly K relaxed o gc gs gr T1 T2 _ _ (login_mechanism t) _ _ Ag
      (auth_fine _ _ _ _ _ _ _ _ t) (auth_nice _ _ _ _ _ _ _ _ t)
      (auth_says _ _ _ _ _ _ _ _ t) z L Tk (conj (ex_intro _ _ S1) (ex_intro _ _ S2))).
  - intros expunge stc sts Ag (Tk & S1 & S2).
    exact (pair_orderly K relaxed o gc gs gr T1 T2 _ _ a1_idle _ _ Ag
      (idle_fine _ _ _ _ _ _ _ _ expunge) (idle_nice _ _ _ _ _ _ _ _ expunge)
      (idle_says _ _ _ _ _ _ _ _ expunge) z L Tk (conj (ex_intro _ _ S1) (ex_intro _ _ S2))).
Qed.
Print Assumptions C66_orderly.

(** client.rs and server.rs come to rest only when the command was sent, the server has answered
    it, and the client was told the answer. *)
Theorem C66_login : forall K relaxed o gc gs gr T1 T2 login z L stc sts,
  let cmd := login_command login in
  agreed K relaxed o gr cmd [no_to cmd] [] -> lits_fit o (enc_command K cmd) ->
  runs (client_rs K login) (server_rs K) relaxed o gc gs gr T1 T2 z L stc sts -> at_rest z ->
  greetings (events (clogs (app_log L))) = [gr] /\
  (exists h, enqueued (clogs (app_log L)) = [(h, cmd)] /\
     terminals (clogs (app_log L)) = [CeCommandSent h cmd]) /\
  reported_all (events (clogs (app_log L))) = [no_to cmd] /\
  sreports (slogs (app_log L)) = [IEvent (SeCommandReceived cmd)] /\
  told_sent (slogs (app_log L)) = [no_to cmd].
Proof.
  intros K relaxed o gc gs gr T1 T2 login z L stc sts cmd Ag Fit (Tk & S1 & S2) Rest.
  exact (login_rest K relaxed o gc gs gr T1 T2 login Ag z L stc sts Tk S1 S2 Fit Rest).
Qed.
Print Assumptions C66_login.

(** client_authenticate.rs and server_authenticate.rs never come to rest: as long as the client
    runs, one of them has something to do. *)
Theorem C66_authenticate : forall K relaxed o gc gs gr T1 T2 t z L stc sts,
  agreed K relaxed o gr (login_mechanism t) (authenticate_texts t) authenticate_answers ->
  lits_fit o (enc_command K (login_mechanism t)) ->
  runs (client_authenticate_rs K t) (server_authenticate_rs K) relaxed o gc gs gr T1 T2 z L stc sts ->
  ~ at_rest z.
Proof.
  intros K relaxed o gc gs gr T1 T2 t z L stc sts Ag Fit (Tk & S1 & S2).
  exact (auth_rest K relaxed o gc gs gr T1 T2 t Ag z L stc sts Tk S1 S2 Fit).
Qed.
Print Assumptions C66_authenticate.

(** client_idle.rs and server_idle.rs come to rest only when IDLE has arrived at the server and
    it is the turn of the user of the server, or of the user of the client, or IDLE was
    rejected. *)
Theorem C66_idle : forall K relaxed o gc gs gr T1 T2 expunge z L stc sts,
  agreed K relaxed o gr a1_idle (idle_texts expunge) [] -> lits_fit o (enc_command K a1_idle) ->
  runs (client_idle_rs K) (server_idle_rs K expunge) relaxed o gc gs gr T1 T2 z L stc sts -> at_rest z ->
  greetings (events (clogs (app_log L))) = [gr] /\
  sreports (slogs (app_log L)) = [IEvent (SeIdleCommandReceived (lit "A1"))] /\
  ((stc = @PAt _ (client_idle_rs K) IpIdle /\
    (unanswered (slogs (app_log L)) \/
     exists h q, exchange (clogs (app_log L)) = [XIdle h; XAccepted h q] /\ terminals (clogs (app_log L)) = [])) \/
   (stc = @PAt _ (client_idle_rs K) IpStatus /\ exists h s, In (CeIdleRejected h s) (events (clogs (app_log L))))).
Proof.
  intros K relaxed o gc gs gr T1 T2 expunge z L stc sts Ag Fit (Tk & S1 & S2) Rest.
  exact (idle_rest K relaxed o gc gs gr T1 T2 expunge Ag z L stc sts Tk S1 S2 Fit Rest).
Qed.
Print Assumptions C66_idle.

(** client_idle.rs returns only after it has sent DONE; when IDLE is rejected it does not. *)
Theorem C66_idle_returns : forall K relaxed o gc gs gr T1 T2 expunge z L sts,
  agreed K relaxed o gr a1_idle (idle_texts expunge) [] ->
  runs (client_idle_rs K) (server_idle_rs K expunge) relaxed o gc gs gr T1 T2 z L (PEnd EndReturned) sts ->
  exists h, terminals (clogs (app_log L)) = [CeIdleDoneSent h].
Proof.
  intros K relaxed o gc gs gr T1 T2 expunge z L sts Ag (Tk & S1 & S2).
  exact (idle_return K relaxed o gc gs gr T1 T2 expunge Ag z L sts Tk S1 S2).
Qed.
Print Assumptions C66_idle_returns.

(** On working sockets and without TLS, client.rs and server.rs never end, and always come to
    rest: what they can do by themselves is finite, and only at rest is there nothing left. *)
Theorem C66_login_lives : forall K relaxed o gc gs gr T1 T2 fuel login z L stc sts,
  let cmd := login_command login in
  let moves := program_moves (client_rs K login) (server_rs K) T1 T2 fuel in
  no_trailing K relaxed -> single_lines K -> sno_trailing K o -> (0 < so_max_command_size o)%N ->
  agreed K relaxed o gr cmd [no_to cmd] [] -> lits_fit o (enc_command K cmd) ->
  works (client_rs K login) (server_rs K) relaxed o gc gs gr T1 T2 fuel z L stc sts ->
  (forall h, stc <> PEnd h) /\ (forall h, sts <> PEnd h) /\
  Acc moves (z, L, stc, sts) /\ (at_rest z \/ exists w, moves w (z, L, stc, sts)).
Proof.
  intros K relaxed o gc gs gr T1 T2 fuel login z L stc sts cmd moves NT SL ST Hmax Ag Fit W.
  exact (login_lives K relaxed o gc gs gr T1 T2 fuel NT SL ST Hmax login Ag Fit z L stc sts W).
Qed.
Print Assumptions C66_login_lives.

(** client_idle.rs and server_idle.rs: as long as no user types, what they can do is finite, and
    when there is nothing left, they are at rest, or the client has returned. The client ends in
    no other way; the server does not end. *)
Theorem C66_idle_lives : forall K relaxed o gc gs gr T1 T2 fuel expunge z L stc sts,
  let moves := program_moves (client_idle_rs K) (server_idle_rs K expunge) T1 T2 fuel in
  no_trailing K relaxed -> single_lines K -> sno_trailing K o -> (0 < so_max_command_size o)%N ->
  agreed K relaxed o gr a1_idle (idle_texts expunge) [] -> lits_fit o (enc_command K a1_idle) ->
  works (client_idle_rs K) (server_idle_rs K expunge) relaxed o gc gs gr T1 T2 fuel z L stc sts ->
  (stc = PEnd EndReturned \/ forall h, stc <> PEnd h) /\ (forall h, sts <> PEnd h) /\
  Acc moves (z, L, stc, sts) /\
  (stc = PEnd EndReturned \/ at_rest z \/ exists w, moves w (z, L, stc, sts)).
Proof.
  intros K relaxed o gc gs gr T1 T2 fuel expunge z L stc sts moves NT SL ST Hmax Ag Fit W.
  exact (idle_lives K relaxed o gc gs gr T1 T2 fuel NT SL ST Hmax expunge Ag Fit z L stc sts W).
Qed.
Print Assumptions C66_idle_lives.

(** client_authenticate.rs and server_authenticate.rs go on until the client returns; only a
    server that never stops asking for data keeps them going for ever. *)
Theorem C66_authenticate_lives : forall K relaxed o gc gs gr T1 T2 fuel t z L stc sts,
  let moves := program_moves (client_authenticate_rs K t) (server_authenticate_rs K) T1 T2 fuel in
  no_trailing K relaxed -> single_lines K -> sno_trailing K o -> (0 < so_max_command_size o)%N ->
  agreed K relaxed o gr (login_mechanism t) (authenticate_texts t) authenticate_answers ->
  lits_fit o (enc_command K (login_mechanism t)) ->
  works (client_authenticate_rs K t) (server_authenticate_rs K) relaxed o gc gs gr T1 T2 fuel z L stc sts ->
  (stc = PEnd EndReturned \/ forall h, stc <> PEnd h) /\ (forall h, sts <> PEnd h) /\
  (forall n, Acc (fun w' w => moves w' w /\
     let '(_, L', _, _) := w' in length (given (rights L')) <= n) (z, L, stc, sts)) /\
  (stc = PEnd EndReturned \/ exists w, moves w (z, L, stc, sts)).
Proof.
  intros K relaxed o gc gs gr T1 T2 fuel t z L stc sts moves NT SL ST Hmax Ag Fit W.
  destruct (auth_lives K relaxed o gc gs gr T1 T2 fuel NT SL ST Hmax t Ag Fit z L stc sts W) as (H1 & H2 & H3 & H4).
  split; [exact H1|]. split; [exact H2|]. split; [|exact H4]. intro n. generalize (H3 n).
  apply acc_incl. intros [[[z1 L1] c1] s1] w [X Y]. exact (conj X Y).
Qed.
Print Assumptions C66_authenticate_lives.

(** ** Cases *)

Ltac one_cmd := split;
  [apply eo_end; try good_line; vm_compute; reflexivity
  |apply cmd_fits_ok;
   [cbn; unfold N.le; cbn; split; [discriminate|exact I]
   |cbn; intros ? [?H|[]]; discriminate]].
Ltac one_data := split;
  [eexists; split; [reflexivity|]; split; [good_line|]; split; [good_line|]; reflexivity
  |unfold line_fits; cbn; unfold N.le; cbn; discriminate].

Lemma ex_agreed_login : agreed toy false y_opts ex_greeting (login_command ex_login_arg)
  [no_to (login_command ex_login_arg)] [].
Proof.
  constructor.
  - cbn [msg_roundtrips]. one_line.
  - intros r [<-|[]]. cbn [msg_roundtrips no_to]. one_line.
  - one_cmd.
  - intros d [].
  - discriminate.
  - reflexivity.
  - cbn [msg_roundtrips]. one_line.
  - cbn [msg_roundtrips]. one_line.
Qed.
Lemma ex_agreed_auth : agreed toy false y_opts ex_greeting (login_mechanism (B "T1"))
  (authenticate_texts (B "T1")) authenticate_answers.
Proof.
  constructor.
  - cbn [msg_roundtrips]. one_line.
  - intros r [<-|[<-|[<-|[<-|[]]]]]; cbn [msg_roundtrips]; one_line.
  - one_cmd.
  - intros d [<-|[<-|[<-|[]]]]; one_data.
  - discriminate.
  - reflexivity.
  - cbn [msg_roundtrips]. one_line.
  - cbn [msg_roundtrips]. one_line.
Qed.
Lemma ex_agreed_idle : agreed toy false y_opts ex_greeting a1_idle (idle_texts ex_expunge) [].
Proof.
  constructor.
  - cbn [msg_roundtrips]. one_line.
  - intros r [<-|[<-|[<-|[<-|[]]]]]; cbn [msg_roundtrips]; one_line.
  - one_cmd.
  - intros d [].
  - intros _. one_data.
  - reflexivity.
  - cbn [msg_roundtrips]. one_line.
  - cbn [msg_roundtrips]. one_line.
Qed.

(** The runs of AppsExamples.v: LOGIN, answered; IDLE, rejected, accepted, and accepted and
    ended by DONE; AUTHENTICATE, until the client returns. *)
Example C66_login_example :
  agreed toy false y_opts ex_greeting (login_command ex_login_arg) [no_to (login_command ex_login_arg)] [] /\
  lits_fit y_opts (enc_command toy (login_command ex_login_arg)) /\
  runs (client_rs toy ex_login_arg) (server_rs toy) false y_opts ex_gen ygen_s ex_greeting TL TL
    (fst login_run) (snd login_run) (at_ (client_rs toy ex_login_arg) (CpMain (hd_ 0)))
    (at_ (server_rs toy) (SpMain [])) /\
  at_rest (fst login_run).
Proof.
  split; [exact ex_agreed_login|]. split; [repeat constructor|].
  split; [split; [apply both_talk|split; [exact login_client|exact login_server]]|].
  repeat split; vm_compute; reflexivity.
Qed.
Example C66_authenticate_example :
  agreed toy false y_opts ex_greeting (login_mechanism (B "T1")) (authenticate_texts (B "T1"))
    authenticate_answers /\
  lits_fit y_opts (enc_command toy (login_mechanism (B "T1"))) /\
  runs (client_authenticate_rs toy (B "T1")) (server_authenticate_rs toy) false y_opts ex_gen ygen_s
    ex_greeting TL TL (fst auth_run) (snd auth_run) (PEnd EndReturned)
    (at_ (server_authenticate_rs toy) (SapMain None)).
Proof.
  split; [exact ex_agreed_auth|]. split; [repeat constructor|].
  split; [apply both_talk|split; [exact auth_client|exact auth_server]].
Qed.
Definition wait_run := both_run (client_idle_rs toy) (server_idle_rs toy ex_expunge) no_coin
  [inr (B "ok"); inr (B "expunge")].
Lemma wait_client : psteps (client_idle_rs toy) (lefts (snd wait_run)) (at_ (client_idle_rs toy) IpIdle).
Proof. follows (client_machine toy) capp_same c_coin (@nil bytes). Qed.
Lemma wait_server : psteps (server_idle_rs toy ex_expunge) (rights (snd wait_run))
  (at_ (server_idle_rs toy ex_expunge) (SipMain (Some (B "A1")))).
Proof. follows (server_machine toy) sapp_same no_coin [B "ok"; B "expunge"]. Qed.
Definition fresh_run := both_run (client_idle_rs toy) (server_idle_rs toy ex_expunge) no_coin [].
Lemma fresh_client : psteps (client_idle_rs toy) (lefts (snd fresh_run)) (at_ (client_idle_rs toy) IpIdle).
Proof. follows (client_machine toy) capp_same c_coin (@nil bytes). Qed.
Lemma fresh_server : psteps (server_idle_rs toy ex_expunge) (rights (snd fresh_run))
  (at_ (server_idle_rs toy ex_expunge) (SipMain (Some (B "A1")))).
Proof. follows (server_machine toy) sapp_same no_coin (@nil bytes). Qed.

Example C66_idle_example :
  agreed toy false y_opts ex_greeting a1_idle (idle_texts ex_expunge) [] /\
  lits_fit y_opts (enc_command toy a1_idle) /\
  Forall (fun x : net TL TL (client_machine toy) (server_machine toy) * _ => exists stc sts,
    runs (client_idle_rs toy) (server_idle_rs toy ex_expunge) false y_opts ex_gen ygen_s ex_greeting TL TL
      (fst x) (snd x) stc sts /\ at_rest (fst x)) [fresh_run; wait_run; hang_run] /\
  (exists sts, runs (client_idle_rs toy) (server_idle_rs toy ex_expunge) false y_opts ex_gen ygen_s ex_greeting TL TL
    (fst idle_run) (snd idle_run) (PEnd EndReturned) sts).
Proof.
  split; [exact ex_agreed_idle|]. split; [repeat constructor|]. split.
  - repeat apply Forall_cons; try apply Forall_nil; (do 2 eexists; split; [split; [apply both_talk|]|]).
    + split; [exact fresh_client|exact fresh_server].
    + repeat split; vm_compute; reflexivity.
    + split; [exact wait_client|exact wait_server].
    + repeat split; vm_compute; reflexivity.
    + split; [exact hang_client|exact hang_server].
    + repeat split; vm_compute; reflexivity.
  - eexists. split; [apply both_talk|split; [exact idle_client|exact idle_server]].
Qed.

(** On working sockets. *)
Definition workingb (a : nact (client_machine toy) (server_machine toy)) : bool :=
  match a with
  | NLeft a => match a with ANext | AWrite (Some (S _)) | ACancel | ACall _ => true | _ => false end
  | NRight a => match a with ANext | AWrite (Some (S _)) | ACancel | ACall _ => true | _ => false end
  | _ => true
  end.
Lemma both_works : forall PC PS coin lines run stc sts, run = both_run PC PS coin lines ->
  psteps PC (lefts (snd run)) stc -> psteps PS (rights (snd run)) sts ->
  forallb workingb (both_acts PC PS coin lines) = true ->
  works PC PS false y_opts ex_gen ygen_s ex_greeting TL TL x_fuel (fst run) (snd run) stc sts.
Proof.
  intros PC PS coin lines run stc sts Er S1 S2 W. exists (both_acts PC PS coin lines).
  split; [|split; [rewrite Er; unfold both_run; now destruct (net_run _ _ _ _ _ _ _)|now split]].
  apply Forall_forall. intros a Ha. eapply forallb_forall in W; [|exact Ha].
  destruct a as [a|a|n|n]; try exact I; destruct a as [| |r0|[[|n]|]|ok| |p]; try discriminate; exact I.
Qed.
Lemma new_works : forall PC PS, works PC PS false y_opts ex_gen ygen_s ex_greeting TL TL x_fuel n_plain []
  (PAt (pr_start PC)) (PAt (pr_start PS)).
Proof. intros. exists []. split; [constructor|]. split; [reflexivity|]. split; constructor. Qed.

Lemma login_eq : login_run = both_run (client_rs toy ex_login_arg) (server_rs toy) no_coin [].
Proof. reflexivity. Qed.
Lemma wait_eq : wait_run = both_run (client_idle_rs toy) (server_idle_rs toy ex_expunge) no_coin
  [inr (B "ok"); inr (B "expunge")].
Proof. reflexivity. Qed.
Lemma auth_eq : auth_run = both_run (client_authenticate_rs toy (B "T1")) (server_authenticate_rs toy) ex_coin [].
Proof. reflexivity. Qed.
Lemma login_working : forallb workingb (both_acts (client_rs toy ex_login_arg) (server_rs toy) no_coin []) = true.
Proof. vm_cast_no_check (eq_refl true). Qed.
Lemma wait_working : forallb workingb (both_acts (client_idle_rs toy) (server_idle_rs toy ex_expunge) no_coin
  [inr (B "ok"); inr (B "expunge")]) = true.
Proof. vm_cast_no_check (eq_refl true). Qed.
Lemma auth_working : forallb workingb (both_acts (client_authenticate_rs toy (B "T1")) (server_authenticate_rs toy) ex_coin []) = true.
Proof. vm_cast_no_check (eq_refl true). Qed.

Example C66_lives_example :
  (no_trailing toy false /\ single_lines toy /\ sno_trailing toy y_opts /\ (0 < so_max_command_size y_opts)%N) /\
  (forall PC PS, works PC PS false y_opts ex_gen ygen_s ex_greeting TL TL x_fuel n_plain []
    (PAt (pr_start PC)) (PAt (pr_start PS))) /\
  works (client_rs toy ex_login_arg) (server_rs toy) false y_opts ex_gen ygen_s ex_greeting TL TL x_fuel
    (fst login_run) (snd login_run) (at_ (client_rs toy ex_login_arg) (CpMain (hd_ 0))) (at_ (server_rs toy) (SpMain [])) /\
  works (client_idle_rs toy) (server_idle_rs toy ex_expunge) false y_opts ex_gen ygen_s ex_greeting TL TL x_fuel
    (fst wait_run) (snd wait_run) (at_ (client_idle_rs toy) IpIdle)
    (at_ (server_idle_rs toy ex_expunge) (SipMain (Some (B "A1")))) /\
  works (client_authenticate_rs toy (B "T1")) (server_authenticate_rs toy) false y_opts ex_gen ygen_s ex_greeting TL TL
    x_fuel (fst auth_run) (snd auth_run) (PEnd EndReturned) (at_ (server_authenticate_rs toy) (SapMain None)).
Proof.
  split; [repeat split; first [apply toy_no_trailing|apply toy_single_lines|apply toy_sno_trailing|reflexivity]|].
  split; [exact new_works|].
  split; [exact (both_works (client_rs toy ex_login_arg) (server_rs toy) no_coin [] login_run _ _ login_eq login_client login_server login_working)|].
  split; [exact (both_works (client_idle_rs toy) (server_idle_rs toy ex_expunge) no_coin _ wait_run _ _ wait_eq wait_client wait_server wait_working)|].
  exact (both_works (client_authenticate_rs toy (B "T1")) (server_authenticate_rs toy) ex_coin [] auth_run _ _ auth_eq auth_client auth_server auth_working).
Qed.
