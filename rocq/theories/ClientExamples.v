(** Concrete runs of the client with the toy codec, used to show that the hypotheses of
    the client theorems can be met. *)
From Coq Require Import List NArith Bool String.
From Verif Require Import Base Types Codec Handle Receive ClientSend Client SpecFraming
  SpecClient ToyCodec.
Import ListNotations.
Open Scope list_scope.

Definition nexts (n : nat) : list cop := repeat CopNext n.
Definition ex_gen : hgen := HGen 3 0.
Definition hd_ (n : N) : handle := Handle 3 n.
Definition ex_log (relaxed : bool) (ops : list cop) : list clog :=
  snd (client_run toy (client_new ex_gen relaxed) ops).
Definition ex_client (relaxed : bool) (ops : list cop) : client :=
  match fst (client_run toy (client_new ex_gen relaxed) ops) with
  | Some c => c
  | None => client_new ex_gen relaxed
  end.

(** LOGIN with a synchronizing and a non-synchronizing literal. *)
Definition ex_login : command :=
  Command (B "A2") (BOther (ln "LOGIN {5}" ++ B "alice" ++ ln " {3+}" ++ B "bob")).
Definition ex_auth : command := cmd "A3" "AUTHENTICATE X".
Definition ex_ca : command_authenticate := CommandAuthenticate (B "A3") (AMOther (B "X")) None.
Definition ex_idle : command := cmd "A4" "IDLE".

(** Two commands are enqueued; the greeting and a response with a literal made of line
    ends arrive in pieces; then a bad line end, a status, rubbish, and the permission to
    send the literal. *)
Definition ops_login : list cop :=
  [CopEnqueueCommand (cmd "A1" "NOOP"); CopEnqueueCommand ex_login; CopNext;
   CopEnqueueInput (B "* OK he"); CopNext; CopEnqueueInput (B "llo" ++ [CR]); CopNext;
   CopEnqueueInput (LF :: ln "* SEARCH {4}" ++ [CR; LF; LF; CR] ++ ln "x")] ++ nexts 6 ++
  [CopEnqueueInput (B "+ go" ++ [LF] ++ ln "A1 OK done" ++ ln "rubbish" ++ ln "+ go ahead")] ++
  nexts 6.

(** The literal is rejected, and the next command is sent. *)
Definition ops_reject : list cop :=
  [CopEnqueueInput (ln "* OK hello"); CopNext; CopEnqueueCommand ex_login;
   CopEnqueueCommand (cmd "A5" "NOOP")] ++ nexts 2 ++
  [CopEnqueueInput (ln "A1 BAD other" ++ ln "A2 NO no" ++ ln "A2 BAD literal")] ++ nexts 5.

(** AUTHENTICATE with two rounds; one call of [set_authenticate_data] comes too early. *)
Definition ops_auth : list cop :=
  [CopEnqueueInput (ln "* OK hello"); CopNext; CopEnqueueCommand ex_auth] ++ nexts 2 ++
  [CopSetAuthenticateData (ADContinue (B "early")); CopEnqueueInput (ln "+ first"); CopNext;
   CopSetAuthenticateData (ADContinue (B "one")); CopNext; CopEnqueueInput (ln "+ second")] ++
  nexts 1 ++
  [CopSetAuthenticateData (ADContinue (B "two")); CopSetAuthenticateData ADCancel; CopNext;
   CopEnqueueInput (ln "A9 OK other" ++ ln "A3 OK done")] ++ nexts 3.

(** IDLE, accepted, then finished; a second IDLE is rejected. *)
Definition ops_idle : list cop :=
  [CopEnqueueInput (ln "* OK hello"); CopNext; CopEnqueueCommand ex_idle;
   CopEnqueueCommand (cmd "A6" "IDLE")] ++ nexts 2 ++
  [CopSetIdleDone; CopEnqueueInput (ln "+ idling" ++ ln "* 5 EXISTS")] ++ nexts 2 ++
  [CopSetIdleDone; CopSetIdleDone] ++ nexts 4 ++ [CopEnqueueInput (ln "A6 NO later")] ++ nexts 2.
