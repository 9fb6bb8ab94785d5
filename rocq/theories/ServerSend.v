(** Model of src/server_send.rs. *)
From Coq Require Import List NArith Bool.
From Verif Require Import Base Types Codec.
Import ListNotations.

(** src/server_send.rs:82-90 [QueuedMessage] and 129-137 [CurrentMessage] (same cases). *)
Inductive smsg : Type :=
| SmGreeting (g : greeting)
| SmResponse (h : option handle) (r : response).

(** src/server_send.rs:11-18 [ServerSendState]. *)
Record ssend : Type := SSend {
  ss_queue : list smsg;
  ss_current : option smsg
}.

(** src/server_send.rs:21-28 [new]. *)
Definition ss_new : ssend := {| ss_queue := []; ss_current := None |}.

(** src/server_send.rs:30-33 [enqueue_greeting], 35-42 [enqueue_response]. *)
Definition ss_enqueue (s : ssend) (m : smsg) : ssend :=
  {| ss_queue := ss_queue s ++ [m]; ss_current := ss_current s |}.

(** src/server_send.rs:93-111 [push_to_buffer], 114-126 [push_encoded_to_buffer]. *)
Definition smsg_bytes (K : Codecs) (m : smsg) : bytes :=
  match m with
  | SmGreeting g => frags_bytes (enc_greeting K g)
  | SmResponse _ r => frags_bytes (enc_response K r)
  end.

(** Result of [ServerSendState::next]; the event (src/server_send.rs:140-148) carries the
    message that was sent. *)
Inductive ss_result : Type :=
| SsOk (e : option smsg)
| SsOutput (b : bytes).

(** src/server_send.rs:44-78 [next]. *)
Definition ss_next (K : Codecs) (s : ssend) : ssend * ss_result :=
  match ss_current s with
  | Some m => ({| ss_queue := ss_queue s; ss_current := None |}, SsOk (Some m))
  | None =>
      match ss_queue s with
      | [] => (s, SsOk None)
      | m :: q => ({| ss_queue := q; ss_current := Some m |}, SsOutput (smsg_bytes K m))
      end
  end.
