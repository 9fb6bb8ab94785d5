(** Concrete runs of the server with the toy codec, used to show that the hypotheses of
    the server theorems can be met, and for the refutations. *)
From Coq Require Import List NArith Bool String.
From Verif Require Import Base Types Codec Handle Receive ServerSend Server SpecFraming
  SpecClient SpecServer ToyCodec ClientExamples.
Import ListNotations.
Open Scope list_scope.

Definition snexts (n : nat) : list sop := repeat SopNext n.
Definition ex_greeting : greeting := Greeting GkOk None (B "hello").

(** Literals up to 10 bytes, commands up to 40 bytes. *)
Definition ex_opts : soptions := SOptions false 10 40 (B "go on") (B "too long").
Definition ex_opts_relaxed : soptions := SOptions true 10 40 (B "go on") (B "too long").

Definition sx_run (o : soptions) (ops : list sop) :=
  server_run toy (server_new ex_gen o ex_greeting) ops.
Definition sx_log (o : soptions) (ops : list sop) : list slog := snd (sx_run o ops).
Definition sx_server (o : soptions) (ops : list sop) : server :=
  match fst (sx_run o ops) with
  | Some s => s
  | None => server_new ex_gen o ex_greeting
  end.

Definition ex_ok (t : string) : response :=
  RStatus (StTagged (B t) (StatusBody SkOk None (B "done"))).
Arguments ex_ok t%string_scope.

(** LOGIN with two literals arrives in pieces, then a bad line end, rubbish, and half a
    command. *)
Definition sops_login : list sop :=
  snexts 2 ++
  [SopEnqueueInput (ln "A2 LOGIN {5}")] ++ snexts 2 ++
  [SopEnqueueInput ([LF; CR; LF] ++ B "ce" ++ ln " {3+}" ++ B "b"); SopNext;
   SopEnqueueInput (B "ob" ++ [CR]); SopNext; SopEnqueueInput [LF]; SopNext;
   SopEnqueue (ex_ok "A2"); SopEnqueue (RData (DOther (B "1 EXISTS")));
   SopEnqueueInput (B "A3 NOOP" ++ [LF] ++ ln "rubbish" ++ B "A4 NO")] ++ snexts 7.

(** Literals that are too long, synchronizing and not; then a command that is too long. *)
Definition sops_long : list sop :=
  snexts 2 ++
  [SopEnqueueInput (ln "A1 APPEND {11}" ++ ln "A2 APPEND {11+}" ++ ln "A3 APPEND {10}")] ++ snexts 6 ++
  [SopEnqueueInput (B "0123456789 this is a command with more than 40 bytes")] ++ snexts 3.

(** AUTHENTICATE with one round, then IDLE with pipelined input. *)
Definition sops_flow : list sop :=
  snexts 2 ++
  [SopEnqueueInput (ln "A3 AUTHENTICATE X" ++ ln "A9 NOOP"); SopNext;
   SopIdleAccept (CcrBasic None (B "early"));
   SopAuthenticateContinue (CcrBasic None (B "data?"))] ++ snexts 3 ++
  [SopAuthenticateFinish (StTagged (B "A3") (StatusBody SkOk None (B "in")));
   SopAuthenticateFinish (StTagged (B "A3") (StatusBody SkNo None (B "twice")))] ++ snexts 3 ++
  [SopEnqueueInput (ln "A4 IDLE" ++ ln "DONE" ++ ln "A5 NOOP")] ++ snexts 2 ++
  [SopIdleAccept (CcrBasic None (B "idling"));
   SopIdleReject (StTagged (B "A4") (StatusBody SkNo None (B "late")))] ++ snexts 4.
