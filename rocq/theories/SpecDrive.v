(** A driver: the application decides, from what it has seen so far, which call to make;
    when it makes none, [next] is called; input is fed, one chunk after the other, only
    when [next] asks for it. *)
From Coq Require Import List NArith.
From Verif Require Import Base Types Codec Client Server.
Import ListNotations.

Definition is_call (o : cop) : Prop :=
  match o with CopEnqueueInput _ | CopNext => False | _ => True end.

Section Drive.
  Variable K : Codecs.
  (** The next call of the application, given its calls with their results, and the
      results of [next] other than "need more input". *)
  Variable app : list clog -> option cop.

  (** [drive c xs h h']: with history [h] and the chunks [xs] to come, the history [h'] is
      reached. *)
  Inductive drive : client -> list bytes -> list clog -> list clog -> Prop :=
  | d_stop : forall c xs h, drive c xs h h
  | d_call : forall c xs h o c' l h',
      app h = Some o -> is_call o -> client_step K c o = (Some c', l) ->
      drive c' xs (h ++ l) h' -> drive c xs h h'
  | d_call_panic : forall c xs h o l,
      app h = Some o -> is_call o -> client_step K c o = (None, l) ->
      drive c xs h (h ++ l)
  | d_next : forall c xs h c' g r h',
      app h = None -> client_next K c = (c', g, r) -> r <> INeedMore -> r <> IPanic ->
      drive c' xs (h ++ [ClNext r]) h' -> drive c xs h h'
  | d_next_panic : forall c xs h c' g,
      app h = None -> client_next K c = (c', g, IPanic) ->
      drive c xs h (h ++ [ClPanic])
  | d_feed : forall c x xs h c' g c'' h',
      app h = None -> client_next K c = (c', g, INeedMore) ->
      client_enqueue_input c' x = Val c'' ->
      drive c'' xs h h' -> drive c (x :: xs) h h'.
End Drive.

(** The history without errors. *)
Definition not_error (e : clog) : bool :=
  match e with ClNext (IError _) => false | _ => true end.
Definition no_errors (h : list clog) : list clog := filter not_error h.

(** The same for the server. *)
Definition is_scall (o : sop) : Prop :=
  match o with SopEnqueueInput _ | SopNext => False | _ => True end.

Section ServerDrive.
  Variable K : Codecs.
  Variable app : list slog -> option sop.

  Inductive sdrive : server -> list bytes -> list slog -> list slog -> Prop :=
  | sd_stop : forall s xs h, sdrive s xs h h
  | sd_call : forall s xs h p s' l h',
      app h = Some p -> is_scall p -> server_step K s p = (Some s', l) ->
      sdrive s' xs (h ++ l) h' -> sdrive s xs h h'
  | sd_call_panic : forall s xs h p l,
      app h = Some p -> is_scall p -> server_step K s p = (None, l) ->
      sdrive s xs h (h ++ l)
  | sd_next : forall s xs h s' g r h',
      app h = None -> server_next K s = (s', g, r) -> r <> INeedMore -> r <> IPanic ->
      sdrive s' xs (h ++ [SlNext r]) h' -> sdrive s xs h h'
  | sd_next_panic : forall s xs h s' g,
      app h = None -> server_next K s = (s', g, IPanic) ->
      sdrive s xs h (h ++ [SlPanic])
  | sd_feed : forall s x xs h s' g s'' h',
      app h = None -> server_next K s = (s', g, INeedMore) ->
      server_enqueue_input s' x = Val s'' ->
      sdrive s'' xs h h' -> sdrive s (x :: xs) h h'.
End ServerDrive.

(** The last result of [next]. *)
Fixpoint last_result (h : list slog) : option s_ires :=
  match h with
  | [] => None
  | SlNext r :: h' => match last_result h' with Some r' => Some r' | None => Some r end
  | _ :: h' => last_result h'
  end.

(** An internal response may be waiting after an output and after a rejected literal. *)
Definition settled_result (r : s_ires) : bool :=
  match r with IOutput _ | IError (SerrLiteralTooLong _) => false | _ => true end.

Definition settled (h : list slog) : bool :=
  match last_result h with Some r => settled_result r | None => true end.

(** The application makes calls only when no internal response is waiting. *)
Definition polite (app : list slog -> option sop) : Prop :=
  forall h p, app h = Some p -> settled h = true.

(** The history without errors about malformed messages and line ends. *)
Definition not_malformed (e : slog) : bool :=
  match e with
  | SlNext (IError (SerrMalformedMessage _)) | SlNext (IError (SerrExpectedCrlfGotLf _)) => false
  | _ => true
  end.
Definition no_malformed (h : list slog) : list slog := filter not_malformed h.
