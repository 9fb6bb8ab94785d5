(** Vocabulary: what the applications of a connected client and server can expect. *)
From Coq Require Import List NArith Bool PeanoNat.
From Verif Require Import Base Types Codec Handle ServerSend Client Server SpecFraming
  SpecClient SpecServer System SpecSystem.
Import ListNotations.

(** The client was asked for data for AUTHENTICATE, and did not give it. *)
Definition due_step (b : bool) (e : clog) : bool :=
  match e with
  | ClNext (IEvent (CeAuthenticateContinuationRequestReceived _ _)) => true
  | ClNext (IEvent (CeAuthenticateStatusReceived _ _ _)) => false
  | ClSetAuth _ (inl _) => false
  | _ => b
  end.
Definition due (l : list clog) : bool := fold_left due_step l false.

(** IDLE was accepted, and the client did not end it. *)
Definition idles_step (b : bool) (e : clog) : bool :=
  match e with
  | ClNext (IEvent (CeIdleAccepted _ _)) => true
  | ClNext (IEvent (CeIdleRejected _ _)) => false
  | ClSetDone (Some _) => false
  | _ => b
  end.
Definition idles (l : list clog) : bool := fold_left idles_step l false.

(** A command with tag [t] has nothing more to send. *)
Definition finished (l : list clog) (t : tag) : Prop :=
  exists k h c, nth_error (enqueued l) k = Some (h, c) /\ ctag c = t /\
    (regular c \/ (cbody c = BIdle /\ In (XDone h) (exchange (segment k l)))).

(** The application was told that the command with tag [t] was sent as far as it will be sent. *)
Definition concluded (l : list clog) (t : tag) : Prop :=
  exists k h c e, nth_error (enqueued l) k = Some (h, c) /\ ctag c = t /\
    nth_error (terminals l) k = Some e /\
    (e = CeCommandSent h c \/ (exists s, e = CeCommandRejected h c s) \/ e = CeIdleDoneSent h).

(** After [l], the event [e] makes sense to the client's application. *)
Definition expected_event (l : list clog) (e : cevent) : Prop :=
  match e with
  | CeContinuationRequestReceived _ => False
  | CeStatusReceived (StTagged t _) => finished l t /\ concluded l t
  | CeAuthenticateStatusReceived _ _ _ => due l = false
  | CeIdleRejected _ _ => idles l = false
  | _ => True
  end.

Definition all_expected (l : list clog) : Prop :=
  forall l1 e l2, l = l1 ++ ClNext (IEvent e) :: l2 -> expected_event l1 e.

(** Data for AUTHENTICATE comes only after it was asked for. *)
Definition data_asked (l : list slog) : Prop :=
  forall l1 d l2, l = l1 ++ SlNext (IEvent (SeAuthenticateDataReceived d)) :: l2 -> asked l1 = true.
