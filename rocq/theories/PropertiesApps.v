(** The example programs (examples/*.rs): C64, C65, C67. *)
From Coq Require Import String List NArith Bool PeanoNat Lia.
From Verif Require Import Base Types Codec Handle Receive ServerSend ClientSend Client Server
  SpecFraming SpecClient SpecServer ClientThms ToyCodec ToyLaws ClientExamples ServerExamples
  System SpecSystem SystemExamples
  Stream StreamMachine SpecStream StreamState ToyTls Net SpecNet NetProofs NetApp NetExamples
  PropertiesStream Apps SpecApps AppsProofs AppsClient AppsServer AppsStd AppsSays AppsNet AppsExamples.
Import ListNotations.
Open Scope list_scope.

(** ** C64 *)

(** No assertion, [unwrap] (except on the errors of [next]) or [panic!] of the examples fails. *)
Theorem C64_clients : forall K login t relaxed g T fuel s f acts x l,
  xrun T (client_machine K) fuel (@XState T (client_machine K) s (client_new g relaxed) f) acts = (x, l) ->
  ~ psteps (client_rs K login) l (PEnd EndFailed) /\
  ~ psteps (client_authenticate_rs K t) l (PEnd EndFailed) /\
  ~ psteps (client_idle_rs K) l (PEnd EndFailed).
Proof.
  intros K login t relaxed g T fuel s f acts x l E.
  split; [|split]; intro H.
  - exact (proj1 (client_rs_inv K login _ _ _ _ _ _ _ _ _ _ E H)).
  - exact (proj1 (client_authenticate_rs_inv K t _ _ _ _ _ _ _ _ _ _ E H)).
  - exact (proj1 (client_idle_rs_inv K _ _ _ _ _ _ _ _ _ _ E H)).
Qed.
Print Assumptions C64_clients.

Theorem C64_servers : forall K expunge g o gr T fuel s f acts x l,
  xrun T (server_machine K) fuel (@XState T (server_machine K) s (server_new g o gr) f) acts = (x, l) ->
  ~ psteps (server_rs K) l (PEnd EndFailed) /\
  ~ psteps (server_authenticate_rs K) l (PEnd EndFailed) /\
  ~ psteps (server_idle_rs K expunge) l (PEnd EndFailed).
Proof.
  intros K expunge g o gr T fuel s f acts x l E.
  split; [|split]; intro H.
  - exact (proj1 (server_rs_inv K _ _ _ _ _ _ _ _ _ _ _ E H)).
  - exact (proj1 (server_authenticate_rs_inv K _ _ _ _ _ _ _ _ _ _ _ E H)).
  - exact (proj1 (server_idle_rs_inv K expunge _ _ _ _ _ _ _ _ _ _ _ E H)).
Qed.
Print Assumptions C64_servers.

(** With the codec laws of C31 the library does not panic under any program. *)
Theorem C64_no_panic : forall K relaxed g o gr, no_trailing K relaxed -> single_lines K -> sno_trailing K o ->
  (forall (P : program (client_machine K)) T fuel acts x l,
    xrun T (client_machine K) fuel
      (@XState T (client_machine K) (stream_insecure T) (client_new g relaxed) FIdle) acts = (x, l) ->
    ~ psteps P l (PEnd EndPanicked)) /\
  (forall (P : program (server_machine K)) T fuel acts x l,
    xrun T (server_machine K) fuel
      (@XState T (server_machine K) (stream_insecure T) (server_new g o gr) FIdle) acts = (x, l) ->
    ~ psteps P l (PEnd EndPanicked)).
Proof.
  intros K relaxed g o gr H1 H2 H3.
  assert (X : forall M (P : program M) l, psteps P l (PEnd EndPanicked) -> In XPanic l \/ In XHang l).
  { intros M P l S. inversion S as [|l0 st e st' S0 S1]; subst.
    inversion S1; subst; try (destruct (pr_event P _ _ _); discriminate);
      try (destruct b; discriminate); try (destruct (k _); discriminate).
    - match goal with X : _ \/ _ |- _ => destruct X as [->| ->]; [left|right] end; apply in_or_app; right; now left.
    - left. apply in_or_app; right; now left. }
  split; intros P T fuel acts x l E S; apply X in S.
  - destruct (C31_client_no_panic K relaxed g H1 H2 T fuel acts x l E) as (A & B & _). tauto.
  - destruct (C31_server_no_panic K g o gr H3 T fuel acts x l E) as (A & B & _). tauto.
Qed.
Print Assumptions C64_no_panic.

(** client.rs and server.rs connected: LOGIN is sent and answered, both wait. *)
Example C64_example :
  talk false y_opts ex_gen ygen_s ex_greeting TL TL (fst login_run) (snd login_run) /\
  psteps (client_rs toy ex_login_arg) (lefts (snd login_run)) (at_ (client_rs toy ex_login_arg) (CpMain (hd_ 0))) /\
  psteps (server_rs toy) (rights (snd login_run)) (at_ (server_rs toy) (SpMain [])) /\
  terminals (flat_map client_app (lefts (snd login_run))) =
    [CeCommandSent (hd_ 0) (login_command ex_login_arg)] /\
  s_commands (flat_map server_app (rights (snd login_run))) = [login_command ex_login_arg].
Proof.
  split; [apply both_talk|]. split; [exact login_client|]. split; [exact login_server|].
  split; vm_compute; reflexivity.
Qed.

(** ** C65 *)

(** client.rs: the one and only call is to enqueue the command, at once when the greeting
    arrives; it never returns. *)
Theorem C65_client : forall K login relaxed g T fuel s f acts x l st,
  xrun T (client_machine K) fuel (@XState T (client_machine K) s (client_new g relaxed) f) acts = (x, l) ->
  psteps (client_rs K login) l st ->
  let A := flat_map client_app l in
  st <> PEnd EndReturned /\
  (c_calls A = [] \/ exists h A2, begins (login_command login) h A2 A /\ c_calls A2 = []) /\
  (waits st -> SpecClient.greeted A -> exists h A2, begins (login_command login) h A2 A /\ c_calls A2 = []).
Proof.
  intros K login relaxed g T fuel s f acts x l st E H A.
  destruct (client_rs_inv K login _ _ _ _ _ _ _ _ _ _ E H) as [I G]. split; [|split].
  - intros ->. exact I.
  - exact G.
  - intros (p & ->) Hg. cbn in I. destruct p as [|h]; [now destruct I|]. destruct I as (A2 & B & C). eauto.
Qed.
Print Assumptions C65_client.

(** client_authenticate.rs: one AUTHENTICATE when the greeting arrives; each request for data
    is answered, in order with the given data and then with cancel, under the handle of the
    command, and accepted; it returns exactly on the status that ends the authentication. *)
Theorem C65_client_authenticate : forall K t relaxed g T fuel s f acts x l st,
  xrun T (client_machine K) fuel (@XState T (client_machine K) s (client_new g relaxed) f) acts = (x, l) ->
  psteps (client_authenticate_rs K t) l st ->
  let A := flat_map client_app l in
  let gives h n := map (fun d => ClSetAuth d (inl h)) (answers name_and_password n) in
  (c_calls A = [] \/ exists h A2 n, begins (login_mechanism t) h A2 A /\
     c_calls A2 = gives h n /\ n <= asks A2 <= S n) /\
  (waits st -> SpecClient.greeted A -> exists h A2, begins (login_mechanism t) h A2 A /\
     c_calls A2 = gives h (asks A2) /\ terminals A = []) /\
  (st = PEnd EndReturned -> exists h A2 x,
     begins (login_mechanism t) h
       (A2 ++ [ClNext (IEvent (CeAuthenticateStatusReceived h (CommandAuthenticate t AMLogin None) x))]) A /\
     c_calls A2 = gives h (asks A2) /\ tagged_status t x).
Proof.
  intros K t relaxed g T fuel s f acts x l st E H A gives.
  destruct (client_authenticate_rs_inv K t _ _ _ _ _ _ _ _ _ _ E H) as [I G]. split; [|split].
  - exact G.
  - intros (p & ->) Hg. cbn in I. destruct p as [|ds]; [now destruct I|].
    destruct I as (h & A2 & B & C & D & _). exists h, A2. auto.
  - intros ->. exact I.
Qed.
Print Assumptions C65_client_authenticate.

(** client_idle.rs: IDLE when the greeting arrives, then at most [set_idle_done]; it returns
    exactly on a status with the tag of the command after IDLE has ended. *)
Theorem C65_client_idle : forall K relaxed g T fuel s f acts x l st,
  xrun T (client_machine K) fuel (@XState T (client_machine K) s (client_new g relaxed) f) acts = (x, l) ->
  psteps (client_idle_rs K) l st ->
  let A := flat_map client_app l in
  (c_calls A = [] \/ exists h A2, begins a1_idle h A2 A /\ only_done A2) /\
  (waits st -> SpecClient.greeted A ->
     (exists h A2, begins a1_idle h A2 A /\ only_done A2 /\ terminals A = []) \/
     (exists h e A3, idled h e A3 A /\ forall y, In y A3 -> ~ status_with (lit "A1") y)) /\
  (st = PEnd EndReturned -> exists h e A3 y, idled h e (A3 ++ [y]) A /\
     (forall z, In z A3 -> ~ status_with (lit "A1") z) /\ status_with (lit "A1") y).
Proof.
  intros K relaxed g T fuel s f acts x l st E H A.
  destruct (client_idle_rs_inv K _ _ _ _ _ _ _ _ _ _ E H) as [I G]. split; [|split].
  - exact G.
  - intros (p & ->) Hg. cbn in I. destruct p; [now destruct I|left|right]; exact I.
  - intros ->. exact I.
Qed.
Print Assumptions C65_client_idle.

(** server.rs never returns. It only enqueues responses: a NO for each command that is neither
    AUTHENTICATE nor IDLE, in order. After those two it reports no further command. *)
Theorem C65_server : forall K g o gr T fuel s f acts x l st,
  xrun T (server_machine K) fuel (@XState T (server_machine K) s (server_new g o gr) f) acts = (x, l) ->
  psteps (server_rs K) l st ->
  let A := flat_map server_app l in
  st <> PEnd EndReturned /\ polite A /\
  s_calls A = map (fun hr => SlEnqueue (snd hr) (fst hr)) (s_enqueued A) /\
  stalls_on_idle A /\ stalls_on_authenticate A /\
  (waits st -> A = [] \/
     greets gr A /\ map snd (s_enqueued A) = map no_to (s_commands A)).
Proof.
  intros K g o gr T fuel s f acts x l st E H A.
  destruct (server_rs_inv K _ _ _ _ _ _ _ _ _ _ _ E H) as [I (G1 & G2 & G3 & G4)].
  split; [intros ->; exact I|]. split; [exact G1|]. split; [exact G4|].
  split; [apply idle_stall_says, G2|]. split; [apply auth_stall_says, G3|].
  intros (p & ->). cbn in I. destruct p as [|hs]; [now left|right]. destruct I as (I1 & I2 & _). auto.
Qed.
Print Assumptions C65_server.

(** server_authenticate.rs never returns. While it waits, each command (except IDLE) and each
    answer of the client has been answered by one call, in order, which was accepted. *)
Theorem C65_server_authenticate : forall K g o gr T fuel s f acts x l st,
  xrun T (server_machine K) fuel (@XState T (server_machine K) s (server_new g o gr) f) acts = (x, l) ->
  psteps (server_authenticate_rs K) l st ->
  let A := flat_map server_app l in
  st <> PEnd EndReturned /\ polite A /\ stalls_on_idle A /\
  (waits st -> A = [] \/
     greets gr A /\ Forall2 answers_event (filter asks_answer (sevents A)) (s_calls A)).
Proof.
  intros K g o gr T fuel s f acts x l st E H A.
  destruct (server_authenticate_rs_inv K _ _ _ _ _ _ _ _ _ _ _ E H) as [I (G1 & G2)].
  split; [intros ->; exact I|]. split; [exact G1|].
  split; [apply idle_stall_says, G2|].
  intros (p & ->). cbn in I. destruct p as [|c]; [now left|right]. destruct I as (I1 & I2 & _). auto.
Qed.
Print Assumptions C65_server_authenticate.

(** server_idle.rs never returns. Whenever it waits, it has enqueued one OK for each DONE, with
    the tag of the IDLE command. After AUTHENTICATE it reports no further command. *)
Theorem C65_server_idle : forall K expunge g o gr T fuel s f acts x l st,
  xrun T (server_machine K) fuel (@XState T (server_machine K) s (server_new g o gr) f) acts = (x, l) ->
  psteps (server_idle_rs K expunge) l st ->
  let A := flat_map server_app l in
  st <> PEnd EndReturned /\ polite A /\ stalls_on_authenticate A /\
  (waits st -> A = [] \/ greets gr A /\ s_statuses A = map idle_ok (dones None A)).
Proof.
  intros K expunge g o gr T fuel s f acts x l st E H A.
  destruct (server_idle_rs_inv K expunge _ _ _ _ _ _ _ _ _ _ _ E H) as [I (G1 & G2)].
  split; [intros ->; exact I|]. split; [exact G1|].
  split; [apply auth_stall_says, G2|].
  intros (p & ->). cbn in I. destruct p as [|c]; [now left|right]. destruct I as (I1 & I2 & _). auto.
Qed.
Print Assumptions C65_server_idle.

(** What the servers say: each call answers what was just received (server.rs,
    server_authenticate.rs), or DONE or the user (server_idle.rs), with exactly these texts. *)
Theorem C65_servers_say : forall K g o gr T fuel s f acts x l,
  xrun T (server_machine K) fuel (@XState T (server_machine K) s (server_new g o gr) f) acts = (x, l) ->
  (forall st, psteps (server_rs K) l st -> justified server_says (flat_map server_app l)) /\
  (forall st, psteps (server_authenticate_rs K) l st ->
     justified server_authenticate_says (flat_map server_app l)) /\
  (forall expunge st, psteps (server_idle_rs K expunge) l st ->
     justified (server_idle_says expunge) (flat_map server_app l)).
Proof.
  intros K g o gr T fuel s f acts x l E. destruct (s_stream_reached _ _ _ _ _ _ _ _ _ _ _ E) as [_ Ty].
  split; [|split].
  - intros st S. exact (server_rs_says K l st S Ty).
  - intros st S. exact (server_authenticate_rs_says K l st S Ty).
  - intros expunge st S. exact (server_idle_rs_says K expunge l st S Ty).
Qed.
Print Assumptions C65_servers_say.

(** AUTHENTICATE between the two examples: the client returns. *)
Example C65_authenticate_example :
  psteps (client_authenticate_rs toy (B "T1")) (lefts (snd auth_run)) (PEnd EndReturned) /\
  psteps (server_authenticate_rs toy) (rights (snd auth_run)) (at_ (server_authenticate_rs toy) (SapMain None)) /\
  asks (flat_map client_app (lefts (snd auth_run))) <> 0 /\
  s_calls (flat_map server_app (rights (snd auth_run))) <> [].
Proof.
  split; [exact auth_client|]. split; [exact auth_server|]. split; vm_compute; discriminate.
Qed.

(** IDLE between the two examples, accepted and ended by DONE: the client returns. *)
Example C65_idle_example :
  psteps (client_idle_rs toy) (lefts (snd idle_run)) (PEnd EndReturned) /\
  psteps (server_idle_rs toy ex_expunge) (rights (snd idle_run)) (at_ (server_idle_rs toy ex_expunge) (SipMain None)) /\
  s_statuses (flat_map server_app (rights (snd idle_run))) = [idle_ok (B "A1")].
Proof. split; [exact idle_client|]. split; [exact idle_server|]. vm_compute. reflexivity. Qed.

(** IDLE rejected: the client waits for a status that the server has no reason to send. *)
Example C65_hang_example :
  psteps (client_idle_rs toy) (lefts (snd hang_run)) (at_ (client_idle_rs toy) IpStatus) /\
  psteps (server_idle_rs toy ex_expunge) (rights (snd hang_run)) (at_ (server_idle_rs toy ex_expunge) (SipMain (Some (B "A1")))) /\
  (exists s, terminals (flat_map client_app (lefts (snd hang_run))) = [CeIdleRejected (hd_ 0) s]).
Proof. split; [exact hang_client|]. split; [exact hang_server|]. eexists. vm_compute. reflexivity. Qed.

(** server.rs stalls on IDLE. *)
Example C65_stall_example :
  psteps (client_idle_rs toy) (lefts (snd stuck_run)) (at_ (client_idle_rs toy) IpIdle) /\
  psteps (server_rs toy) (rights (snd stuck_run)) (at_ (server_rs toy) (SpMain [])) /\
  In (SeIdleCommandReceived (B "A1")) (sevents (flat_map server_app (rights (snd stuck_run)))).
Proof. split; [exact stuck_client|]. split; [exact stuck_server|]. vm_compute. auto. Qed.

(** ** C67 *)

(** client_std.rs: no assertion or [panic!] fails (except on errors), it does not return, and
    makes one call, like client.rs. *)
Theorem C67_std : forall K login relaxed g l st c, ststeps K login l st -> alone K relaxed g l c ->
  let A := flat_map c_ev l in
  st <> StEnd EndReturned /\ st <> StEnd EndFailed /\ st <> StEnd EndPanicked /\
  (c_calls A = [] \/ exists h A2, begins (login_command login) h A2 A /\ c_calls A2 = []) /\
  (forall p, st = StRead p -> SpecClient.greeted A ->
     exists h A2, begins (login_command login) h A2 A /\ c_calls A2 = []).
Proof.
  intros K login relaxed g l st c S H A. destruct (client_std_inv K login relaxed g l st S c H) as [I G].
  split; [intros ->; exact I|]. split; [intros ->; exact I|]. split; [intros ->; exact I|].
  split; [exact G|]. intros p -> Hg. cbn in I. destruct p as [|h]; [now destruct I|].
  destruct I as (A2 & B & C). eauto.
Qed.
Print Assumptions C67_std.

(** At the end of the input it spins: reading nothing, it goes on for any number of turns, and
    with nothing but the end of the input to read it does nothing else. *)
Theorem C67_spins : forall K login relaxed g l p c, ststeps K login l (StRead p) -> alone K relaxed g l c ->
  (forall n, exists c', ststeps K login (l ++ eof_turns K n) (StRead p) /\
     alone K relaxed g (l ++ eof_turns K n) c') /\
  (forall l2 st c2, ststeps K login (l ++ l2) st -> alone K relaxed g (l ++ l2) c2 ->
     Forall (at_eof K) l2 -> exists n,
       (st = StRead p /\ l2 = eof_turns K n) \/
       (st = StGive p [] /\ l2 = eof_turns K n ++ [XRead []]) \/
       (st = StNext p /\ l2 = eof_turns K n ++ [XRead []; XGive []])).
Proof.
  intros K login relaxed g l p c S H. split.
  - intro n. eapply eof_can; eassumption.
  - intros l2 st c2 S2 H2 F. eapply eof_spins; eassumption.
Qed.
Print Assumptions C67_spins.

Definition std_end : client :=
  match call_run (client_machine toy) (client_new ex_gen false) (calls std_log) with
  | Some (c, _) => c
  | None => client_new ex_gen false
  end.
Example C67_example :
  ststeps toy ex_login_arg std_log (StRead (CpMain (hd_ 0))) /\ alone toy false ex_gen std_log std_end /\
  SpecClient.greeted (flat_map c_ev std_log).
Proof.
  split; [exact std_steps|].
  split; [vm_cast_no_check (@eq_refl _ (Some (std_end, call_entries std_log)))|].
  exists (Greeting GkOk None (B "hi")). now left.
Qed.
