(** What one step of the proxy adds to what its [Server] and its [Client] are asked and tell. *)
From Coq Require Import List NArith Bool PeanoNat Lia.
From Verif Require Import Base Types Codec Handle Receive ClientSend Client ServerSend Server
  SpecFraming SpecClient SpecServer System SpecSystem SpecSystemLive SpecViews
  Stream StreamMachine SpecStream Net SpecNet ProxyUtil Proxy SpecProxy ProxyProofs
  Relay SpecRelay RelayProofs.
Import ListNotations.

Section Glue.
Context (K : Codecs) (Tc Ts : tls) (fuel : nat).
Notation SM := (server_machine K).
Notation CM := (client_machine K).

Definition saw (l : list (plog K)) : list slog := flat_map server_app (at_client l).
Definition caw (l : list (plog K)) : list clog := flat_map client_app (at_server l).

Lemma at_client_app : forall (a b : list (plog K)), at_client (a ++ b) = at_client a ++ at_client b.
Proof. induction a as [|[] a IH]; intro b; cbn; rewrite ?IH; reflexivity. Qed.
Lemma at_server_app : forall (a b : list (plog K)), at_server (a ++ b) = at_server a ++ at_server b.
Proof. induction a as [|[] a IH]; intro b; cbn; rewrite ?IH; reflexivity. Qed.
Lemma saw_app : forall a b, saw (a ++ b) = saw a ++ saw b.
Proof. intros. unfold saw. now rewrite at_client_app, flat_map_app. Qed.
Lemma caw_app : forall a b, caw (a ++ b) = caw a ++ caw b.
Proof. intros. unfold caw. now rewrite at_server_app, flat_map_app. Qed.
Lemma saw_c : forall l, saw (map PlClient l) = flat_map server_app l.
Proof. unfold saw. induction l; cbn; congruence. Qed.
Lemma saw_s : forall l, saw (map PlServer l) = [].
Proof. unfold saw. induction l; cbn; congruence. Qed.
Lemma caw_s : forall l, caw (map PlServer l) = flat_map client_app l.
Proof. unfold caw. induction l; cbn; congruence. Qed.
Lemma caw_c : forall l, caw (map PlClient l) = [].
Proof. unfold caw. induction l; cbn; congruence. Qed.

(** What a future tells its application. *)
Definition told_s (r : option (sret SM)) : list slog :=
  match r with
  | Some (RetEvent e) => [SlNext (IEvent (e : sevent))]
  | Some (RetState e) => [SlNext (IError (e : serror))]
  | _ => []
  end.
Definition told_c (r : option (sret CM)) : list clog :=
  match r with
  | Some (RetEvent e) => [ClNext (IEvent (e : cevent))]
  | Some (RetState e) => [ClNext (IError (e : cerror))]
  | _ => []
  end.

Lemma told_s_ok : forall x a x' l', xstep Tc SM fuel x (io_act SM a) = (x', l') ->
  flat_map server_app l' = told_s (returned l').
Proof.
  intros x a x' l' E. apply io_shape in E as (pre & post & El & Fp & En).
  rewrite El at 1. rewrite flat_map_app.
  assert (flat_map server_app pre = []) as ->.
  { clear -Fp. induction Fp as [|e pre He Fp IH]; [reflexivity|]. cbn. rewrite IH.
    destruct e; cbn in He; try contradiction; reflexivity. }
  destruct En as [|r [->|[->| ->]]|e|e]; reflexivity.
Qed.
Lemma told_c_ok : forall x a x' l', xstep Ts CM fuel x (io_act CM a) = (x', l') ->
  flat_map client_app l' = told_c (returned l').
Proof.
  intros x a x' l' E. apply io_shape in E as (pre & post & El & Fp & En).
  rewrite El at 1. rewrite flat_map_app.
  assert (flat_map client_app pre = []) as ->.
  { clear -Fp. induction Fp as [|e pre He Fp IH]; [reflexivity|]. cbn. rewrite IH.
    destruct e; cbn in He; try contradiction; reflexivity. }
  destruct En as [|r [->|[->| ->]]|e|e]; reflexivity.
Qed.

(** Commands among the events of a server. *)
Definition new_command (e : sevent) : option command :=
  match e with
  | SeCommandReceived c => Some c
  | SeCommandAuthenticateReceived ca => Some (command_of_authenticate ca)
  | SeIdleCommandReceived t => Some (Command t BIdle)
  | _ => None
  end.

(** At the client's side. [ended]: the proxy does not continue. The last argument: [unwrap]
    panics. *)
Inductive upward (ended : bool) : list slog -> list clog -> bool -> Prop :=
| up_none : upward ended [] [] false
| up_error : forall x, upward ended [SlNext (IError x)] [] false
| up_greeted : forall g, upward ended [SlNext (IEvent (SeGreetingSent g))] [] false
| up_sent : forall h r, upward ended [SlNext (IEvent (SeResponseSent h r))] [] false
| up_command : forall e c h, new_command e = Some c ->
    upward ended [SlNext (IEvent e)] [ClEnqueue c h] false
| up_data : forall d h,
    upward ended [SlNext (IEvent (SeAuthenticateDataReceived d))] [ClSetAuth d (inl h)] false
| up_refused : forall d d', ended = true ->
    upward ended [SlNext (IEvent (SeAuthenticateDataReceived d))] [ClSetAuth d (inr d')] true
| up_done : forall r, upward ended [SlNext (IEvent SeIdleDoneReceived)] [ClSetDone r] false
| up_broken : forall e, ended = true -> upward ended [SlNext (IEvent e)] [] false.

Definition ends (p : pstate K Tc Ts) : bool := match p with PsEnd _ => true | _ => false end.

Lemma no_panic_c : forall (l : list (xlog SM)), ~ In PlPanic (map (@PlClient K) l).
Proof. intros l H. apply in_map_iff in H as (e & H & _). discriminate. Qed.
Lemma no_panic_s : forall (l : list (xlog CM)), ~ In PlPanic (map (@PlServer K) l).
Proof. intros l H. apply in_map_iff in H as (e & H & _). discriminate. Qed.

Ltac calls := 
  repeat match goal with
  | H : In _ (_ ++ _) |- _ => apply in_app_or in H as [H|H]
  | H : In PlPanic (map PlClient _) |- _ => now apply no_panic_c in H
  | H : In PlPanic (map PlServer _) |- _ => now apply no_panic_s in H
  | H : In _ [] |- _ => contradiction H
  | H : In _ (_ :: _) |- _ => destruct H as [H|H]; [try discriminate H|]
  end; try discriminate; try contradiction.

Lemma client_glue : forall c s a p l, client_side K Tc Ts fuel c s a = (p, l) ->
  exists b, upward (ends p) (saw l) (caw l) b /\ (In PlPanic l -> b = true).
Proof.
  intros c s a p l E. unfold client_side in E.
  destruct (xstep Tc SM fuel c (io_act SM a)) as [c1 l1] eqn:Ex.
  pose proof (told_s_ok _ _ _ _ Ex) as Et.
  destruct (is_dead (x_f c1)).
  { injection E as <- <-. rewrite saw_c, caw_c, Et.
    exists false. split; [|intro H; now apply no_panic_c in H].
    destruct (returned l1) as [[e|e| | | |]|]; cbn; [now apply up_broken|constructor..]. }
  destruct (returned l1) as [r|] eqn:Er.
  2:{ injection E as <- <-. rewrite saw_c, caw_c, Et. exists false. split; [constructor|].
      intro H; now apply no_panic_c in H. }
  destruct (xstep Ts CM fuel s ACancel) as [s1 l2] eqn:Ec. apply cancel_step in Ec as (_ & _ & _ & Ec).
  assert (Z1 : saw (map PlClient l1 ++ map PlServer l2) = told_s (Some r)).
  { now rewrite saw_app, saw_c, saw_s, app_nil_r. }
  assert (Z2 : caw (map PlClient l1 ++ map PlServer l2) = []).
  { rewrite caw_app, caw_c, caw_s. now destruct Ec as [->| ->]. }
  assert (Z3 : ~ In PlPanic (map PlClient l1 ++ map PlServer l2)) by (intro; calls).
  remember (map PlClient l1 ++ map PlServer l2) as lx eqn:Elx. clear Elx.
  destruct (handle_client_event K r) as [| |o u] eqn:Eh.
  - injection E as <- <-. rewrite saw_app, caw_app, Z1, Z2. exists false. split; [|intro; calls].
    destruct r as [e|e| | | |]; cbn; [destruct e; discriminate|constructor..].
  - injection E as <- <-. rewrite Z1, Z2. exists false. split; [|intro; calls].
    destruct r as [e|e| | | |]; cbn; [destruct e; try discriminate; constructor|constructor..].
  - destruct r as [e|e| | | |]; try discriminate.
    destruct (m_call CM (x_m s1) o) as [[m r]|] eqn:Em.
    2:{ injection E as <- <-. rewrite saw_app, caw_app, Z1, Z2. exists false.
        split; [|intro; calls]. cbn. now constructor. }
    assert (Q : exists b, (if u && c_call_failed r then b = true else b = false) /\
      (forall ended, (u && c_call_failed r = true -> ended = true) -> upward ended [SlNext (IEvent e)] [r] b)).
    { destruct o as [cmd|d|]; cbn in Em.
      - destruct (client_enqueue_command (x_m s1) cmd) as [m1 h]. injection Em as <- <-.
        exists false. cbn. rewrite andb_false_r. split; [reflexivity|]. intros en _.
        constructor. destruct e; cbn in Eh |- *; try discriminate; now injection Eh as -> _.
      - destruct e; try discriminate. injection Eh as -> <-.
        destruct (client_set_authenticate_data K (x_m s1) d) as [[m1 [h|d']]|]; [| |discriminate];
          injection Em as <- <-; cbn.
        + exists false. split; [reflexivity|]. constructor.
        + exists true. split; [reflexivity|]. intros. constructor. auto.
      - destruct e; try discriminate. injection Eh as <-.
        destruct (client_set_idle_done K (x_m s1)) as [[m1 r1]|]; [|discriminate].
        injection Em as <- <-. exists false. split; [reflexivity|]. constructor. }
    destruct Q as (b & Q1 & Q2).
    destruct (u && c_call_failed r) eqn:Eu; injection E as <- <-;
      rewrite !saw_app, !caw_app, Z1, Z2; exists b; cbn [saw caw at_client at_server flat_map app client_app told_s ends].
    + split; [|intro; exact Q1]. apply Q2. auto.
    + split; [|intro; calls]. apply Q2. discriminate.
Qed.

(** Responses that the proxy enqueues. *)
Definition new_response (e : cevent) : option response :=
  match e with
  | CeCommandRejected _ c s => Some (RStatus (modified_status c s))
  | CeDataReceived d => Some (RData (filter_data d))
  | CeStatusReceived s => Some (RStatus (filter_status s))
  | CeContinuationRequestReceived q => Some (RCcr (filter_continuation q))
  | _ => None
  end.

(** At the server's side. *)
Inductive downward (ended : bool) : list clog -> list slog -> bool -> Prop :=
| dn_none : downward ended [] [] false
| dn_error : forall x, downward ended [ClNext (IError x)] [] false
| dn_quiet : forall e, reported e = None -> downward ended [ClNext (IEvent e)] [] false
| dn_response : forall e r h, new_response e = Some r ->
    downward ended [ClNext (IEvent e)] [SlEnqueue r h] false
| dn_continue : forall h q r b, b = s_call_failed (SlAuthContinue q r) -> (b = true -> ended = true) ->
    downward ended [ClNext (IEvent (CeAuthenticateContinuationRequestReceived h q))] [SlAuthContinue q r] b
| dn_finish : forall h ca t r b, b = s_call_failed (SlAuthFinish t r) -> (b = true -> ended = true) ->
    downward ended [ClNext (IEvent (CeAuthenticateStatusReceived h ca t))] [SlAuthFinish t r] b
| dn_accept : forall h q r b, b = s_call_failed (SlIdleAccept q r) -> (b = true -> ended = true) ->
    downward ended [ClNext (IEvent (CeIdleAccepted h q))] [SlIdleAccept q r] b
| dn_reject : forall h t r b, b = s_call_failed (SlIdleReject t r) -> (b = true -> ended = true) ->
    downward ended [ClNext (IEvent (CeIdleRejected h t))] [SlIdleReject t r] b
| dn_broken : forall e, ended = true -> downward ended [ClNext (IEvent e)] [] false.

Lemma server_glue : forall c s a p l, server_side K Tc Ts fuel c s a = (p, l) ->
  exists b, downward (ends p) (caw l) (saw l) b /\ (In PlPanic l -> b = true).
Proof.
  intros c s a p l E. unfold server_side in E.
  destruct (xstep Ts CM fuel s (io_act CM a)) as [s1 l1] eqn:Ex.
  pose proof (told_c_ok _ _ _ _ Ex) as Et.
  destruct (is_dead (x_f s1)).
  { injection E as <- <-. rewrite saw_s, caw_s, Et.
    exists false. split; [|intro H; now apply no_panic_s in H].
    destruct (returned l1) as [[e|e| | | |]|]; cbn; [now apply dn_broken|constructor..]. }
  destruct (returned l1) as [r|] eqn:Er.
  2:{ injection E as <- <-. rewrite saw_s, caw_s, Et. exists false. split; [constructor|].
      intro H; now apply no_panic_s in H. }
  destruct (xstep Tc SM fuel c ACancel) as [c1 l2] eqn:Ec. apply cancel_step in Ec as (_ & _ & _ & Ec).
  assert (Z1 : caw (map PlServer l1 ++ map PlClient l2) = told_c (Some r)).
  { now rewrite caw_app, caw_c, caw_s, app_nil_r. }
  assert (Z2 : saw (map PlServer l1 ++ map PlClient l2) = []).
  { rewrite saw_app, saw_c, saw_s. now destruct Ec as [->| ->]. }
  assert (Z3 : ~ In PlPanic (map PlServer l1 ++ map PlClient l2)) by (intro; calls).
  remember (map PlServer l1 ++ map PlClient l2) as lx eqn:Elx. clear Elx.
  destruct (handle_server_event K r) as [| |o u] eqn:Eh.
  - injection E as <- <-. rewrite saw_app, caw_app, Z1, Z2. exists false. split; [|intro; calls].
    destruct r as [e|e| | | |]; cbn; [destruct e; discriminate|constructor..].
  - injection E as <- <-. rewrite Z1, Z2. exists false. split; [|intro; calls].
    destruct r as [e|e| | | |]; cbn; [destruct e; try discriminate; now constructor|constructor..].
  - destruct r as [e|e| | | |]; try discriminate.
    destruct (m_call SM (x_m c1) o) as [[m r]|] eqn:Em.
    2:{ injection E as <- <-. rewrite saw_app, caw_app, Z1, Z2. exists false.
        split; [|intro; calls]. cbn. now apply dn_broken. }
    assert (Q : exists b, (if u && s_call_failed r then b = true else b = false) /\
      (forall ended, (u && s_call_failed r = true -> ended = true) -> downward ended [ClNext (IEvent e)] [r] b)).
    { destruct o as [rs|q|t|q|t]; cbn in Em.
      - destruct (server_enqueue_response (x_m c1) rs) as [m1 h]. injection Em as <- <-.
        exists false. cbn. rewrite andb_false_r. split; [reflexivity|]. intros en _.
        constructor. destruct e; cbn in Eh |- *; try discriminate; now injection Eh as -> _.
      - destruct e; try discriminate. injection Eh as -> <-.
        destruct (server_authenticate_continue (x_m c1) q) as [m1 r1]. injection Em as <- <-.
        exists (s_call_failed (SlAuthContinue q r1)). split; [now destruct r1|]. intros. now apply dn_continue.
      - destruct e; try discriminate. injection Eh as -> <-.
        destruct (server_authenticate_finish (x_m c1) t) as [[m1 r1]|]; [|discriminate]. injection Em as <- <-.
        exists (s_call_failed (SlAuthFinish t r1)). split; [now destruct r1|]. intros. now apply dn_finish.
      - destruct e; try discriminate. injection Eh as -> <-.
        destruct (server_idle_accept (x_m c1) q) as [[m1 r1]|]; [|discriminate]. injection Em as <- <-.
        exists (s_call_failed (SlIdleAccept q r1)). split; [now destruct r1|]. intros. now apply dn_accept.
      - destruct e; try discriminate. injection Eh as -> <-.
        destruct (server_idle_reject (x_m c1) t) as [[m1 r1]|]; [|discriminate]. injection Em as <- <-.
        exists (s_call_failed (SlIdleReject t r1)). split; [now destruct r1|]. intros. now apply dn_reject. }
    destruct Q as (b & Q1 & Q2).
    destruct (u && s_call_failed r) eqn:Eu; injection E as <- <-;
      rewrite !saw_app, !caw_app, Z1, Z2; exists b; cbn [saw caw at_client at_server flat_map app server_app told_c ends].
    + split; [|intro; exact Q1]. apply Q2. auto.
    + split; [|intro; calls]. apply Q2. discriminate.
Qed.

(** Before the greeting. *)
Lemma greeting_glue : forall gp c s a p l, greeting_side K Tc Ts fuel gp c s a = (p, l) ->
  saw l = [] /\ ~ In PlPanic l /\
  match p with
  | PsGreeting _ _ => caw l = []
  | PsLoop _ _ => exists g, caw l = [ClNext (IEvent (CeGreetingReceived g))]
  | PsEnd _ => caw l = [] \/ exists r, caw l = [ClNext r]
  end.
Proof.
  intros gp c s a p l E. unfold greeting_side in E.
  destruct (xstep Ts CM fuel s (io_act CM a)) as [s1 l1] eqn:Ex.
  pose proof (told_c_ok _ _ _ _ Ex) as Et.
  destruct (is_dead (x_f s1)).
  { injection E as <- <-. rewrite saw_s, caw_s, Et. split; [reflexivity|]. split; [apply no_panic_s|].
    destruct (returned l1) as [[e|e| | | |]|]; cbn; eauto. }
  destruct (returned l1) as [[e|e| | | |]|] eqn:Er; cbn in Et.
  1: destruct e; injection E as <- <-; rewrite ?saw_app, ?caw_app, saw_s, caw_s, Et;
     (split; [reflexivity|]; split; [intro; calls|]; cbn; eauto).
  all: injection E as <- <-; rewrite ?saw_app, ?caw_app, saw_s, caw_s, Et;
     (split; [reflexivity|]; split; [intro; calls|]; cbn; eauto).
Qed.
End Glue.
