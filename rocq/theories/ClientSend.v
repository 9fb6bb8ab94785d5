(** Model of src/client_send.rs. *)
From Coq Require Import List NArith Bool.
From Verif Require Import Base Types Codec.
Import ListNotations.

(** src/client_send.rs:524-541 [CommandActivity]. *)
Inductive command_activity : Type :=
| CaPushingFragments (accepted_literal : option bytes)
| CaWaitingForFragmentsSent (limbo_literal : option bytes)
| CaWaitingForLiteralAccepted (limbo_literal : bytes).

(** src/client_send.rs:594-610 [AuthenticateActivity]. *)
Inductive authenticate_activity : Type :=
| AaPushingAuthenticate (authenticate : bytes)
| AaWaitingForAuthenticateSent
| AaWaitingForAuthenticateResponse
| AaWaitingForAuthenticateDataSet
| AaPushingAuthenticateData (authenticate_data : bytes)
| AaWaitingForAuthenticateDataSent.

(** src/client_send.rs:659-675 [IdleActivity]. *)
Inductive idle_activity : Type :=
| IaPushingIdle (idle : bytes)
| IaWaitingForIdleSent
| IaWaitingForIdleResponse
| IaWaitingForIdleDoneSet
| IaPushingIdleDone (idle_done : bytes)
| IaWaitingForIdleDoneSent.

(** src/client_send.rs:385-393 [CurrentMessage] with the fields of [CommandState]
    (444-450), [AuthenticateState] (543-547) and [IdleState] (612-616). *)
Inductive current_message : Type :=
| CmCommand (h : handle) (c : command) (fragments : list fragment)
            (activity : command_activity)
| CmAuthenticate (h : handle) (ca : command_authenticate)
                 (activity : authenticate_activity)
| CmIdle (h : handle) (t : tag) (activity : idle_activity).

(** src/client_send.rs:18-26 [ClientSendState] and 327-330 [QueuedMessage]. *)
Record csend : Type := CSend {
  cs_queue : list (handle * command);
  cs_current : option current_message
}.

(** src/client_send.rs:29-41 [new]. *)
Definition cs_new : csend := {| cs_queue := []; cs_current := None |}.

(** src/client_send.rs:43-46 [enqueue_command]. *)
Definition cs_enqueue_command (s : csend) (h : handle) (c : command) : csend :=
  {| cs_queue := cs_queue s ++ [(h, c)]; cs_current := cs_current s |}.

Definition cs_set_current (s : csend) (m : option current_message) : csend :=
  {| cs_queue := cs_queue s; cs_current := m |}.

(** src/client_send.rs:695-713 [ClientSendTermination]. *)
Inductive cs_termination : Type :=
| CtLiteralRejected (h : handle) (c : command)
| CtAuthenticateAccepted (h : handle) (ca : command_authenticate)
| CtAuthenticateRejected (h : handle) (ca : command_authenticate)
| CtIdleRejected (h : handle).

Definition status_kind_is_bad (k : status_kind) : bool :=
  match k with SkBad => true | _ => false end.

(** src/client_send.rs:49-129 [maybe_terminate]. *)
Definition cs_maybe_terminate (s : csend) (st : status) : csend * option cs_termination :=
  match cs_current s with
  | None => (s, None)
  | Some (CmCommand h c fs act) =>
      match st with
      | StTagged t b =>
          if status_kind_is_bad (sb_kind b) && bytes_eqb t (ctag c)
          then (cs_set_current s None, Some (CtLiteralRejected h c))
          else (s, None)
      | _ => (s, None)
      end
  | Some (CmAuthenticate h ca act) =>
      match st with
      | StTagged t b =>
          if bytes_eqb t (ca_tag ca)
          then
            match sb_kind b with
            | SkOk => (cs_set_current s None, Some (CtAuthenticateAccepted h ca))
            | SkNo | SkBad => (cs_set_current s None, Some (CtAuthenticateRejected h ca))
            end
          else (s, None)
      | _ => (s, None)
      end
  | Some (CmIdle h t0 act) =>
      match st with
      | StTagged t b =>
          if bytes_eqb t t0
          then (cs_set_current s None, Some (CtIdleRejected h))
          else (s, None)
      | _ => (s, None)
      end
  end.

(** src/client_send.rs:132-155 [literal_continue]. *)
Definition cs_literal_continue (s : csend) : csend * bool :=
  match cs_current s with
  | Some (CmCommand h c fs (CaWaitingForLiteralAccepted lit)) =>
      (cs_set_current s (Some (CmCommand h c fs (CaPushingFragments (Some lit)))), true)
  | _ => (s, false)
  end.

(** src/client_send.rs:158-177 [authenticate_continue]. *)
Definition cs_authenticate_continue (s : csend) : csend * option handle :=
  match cs_current s with
  | Some (CmAuthenticate h ca AaWaitingForAuthenticateResponse) =>
      (cs_set_current s (Some (CmAuthenticate h ca AaWaitingForAuthenticateDataSet)),
       Some h)
  | _ => (s, None)
  end.

(** "is a single line by definition" (src/client_send.rs:198-206, 254-262, 346-350,
    365-369): panics unless the encoding is exactly one line fragment. *)
Definition single_line (fs : list fragment) : res bytes :=
  match fs with
  | [FLine d] => Val d
  | _ => Panic
  end.

(** src/client_send.rs:180-215 [set_authenticate_data]. *)
Definition cs_set_authenticate_data (K : Codecs) (s : csend) (d : auth_data)
  : res (csend * (handle + auth_data)) :=
  match cs_current s with
  | Some (CmAuthenticate h ca AaWaitingForAuthenticateDataSet) =>
      bind (single_line (enc_authdata K d)) (fun line =>
      Val (cs_set_current s (Some (CmAuthenticate h ca (AaPushingAuthenticateData line))),
           inl h))
  | _ => Val (s, inr d)
  end.

(** src/client_send.rs:218-237 [idle_continue]. *)
Definition cs_idle_continue (s : csend) : csend * option handle :=
  match cs_current s with
  | Some (CmIdle h t IaWaitingForIdleResponse) =>
      (cs_set_current s (Some (CmIdle h t IaWaitingForIdleDoneSet)), Some h)
  | _ => (s, None)
  end.

(** src/client_send.rs:240-271 [set_idle_done]. *)
Definition cs_set_idle_done (K : Codecs) (s : csend) : res (csend * option handle) :=
  match cs_current s with
  | Some (CmIdle h t IaWaitingForIdleDoneSet) =>
      bind (single_line (enc_idledone K)) (fun line =>
      Val (cs_set_current s (Some (CmIdle h t (IaPushingIdleDone line))), Some h))
  | _ => Val (s, None)
  end.

(** src/client_send.rs:678-692 [ClientSendEvent]. *)
Inductive cs_event : Type :=
| CvCommand (h : handle) (c : command)
| CvAuthenticate (h : handle)
| CvIdle (h : handle)
| CvIdleDone (h : handle).

(** src/client_send.rs:334-383 [QueuedMessage::start]. *)
Definition queued_start (K : Codecs) (h : handle) (c : command) : res current_message :=
  let fs := enc_command K c in
  match cbody c with
  | BAuthenticate mech ir =>
      bind (single_line fs) (fun line =>
      Val (CmAuthenticate h
             {| ca_tag := ctag c; ca_mechanism := mech; ca_initial_response := ir |}
             (AaPushingAuthenticate line)))
  | BIdle =>
      bind (single_line fs) (fun line => Val (CmIdle h (ctag c) (IaPushingIdle line)))
  | BOther _ => Val (CmCommand h c fs (CaPushingFragments None))
  end.

(** The loop of src/client_send.rs:463-484: pushes fragments until a synchronizing
    literal; returns the pushed bytes, that literal and the remaining fragments. *)
Fixpoint push_fragments (fs : list fragment) : bytes * option bytes * list fragment :=
  match fs with
  | [] => ([], None, [])
  | FLiteral d LSync :: fs' => ([], Some d, fs')
  | f :: fs' =>
      let '(out, limbo, rest) := push_fragments fs' in
      (frag_data f ++ out, limbo, rest)
  end.

Definition opt_bytes (o : option bytes) : bytes :=
  match o with Some b => b | None => [] end.

(** src/client_send.rs:396-402, 453-497, 550-566, 619-635 [push_to_buffer]. *)
Definition cm_push_to_buffer (m : current_message) : bytes * current_message :=
  match m with
  | CmCommand h c fs (CaPushingFragments acc) =>
      let '(out, limbo, rest) := push_fragments fs in
      (opt_bytes acc ++ out, CmCommand h c rest (CaWaitingForFragmentsSent limbo))
  | CmCommand _ _ _ _ => ([], m)
  | CmAuthenticate h ca (AaPushingAuthenticate line) =>
      (line, CmAuthenticate h ca AaWaitingForAuthenticateSent)
  | CmAuthenticate h ca (AaPushingAuthenticateData line) =>
      (line, CmAuthenticate h ca AaWaitingForAuthenticateDataSent)
  | CmAuthenticate _ _ _ => ([], m)
  | CmIdle h t (IaPushingIdle line) => (line, CmIdle h t IaWaitingForIdleSent)
  | CmIdle h t (IaPushingIdleDone line) => (line, CmIdle h t IaWaitingForIdleDoneSent)
  | CmIdle _ _ _ => ([], m)
  end.

(** src/client_send.rs:417-429 [FinishSendingResult]: the state is [None] if the message
    was sent completely. *)
Definition finish_result : Type := option current_message * option cs_event.

(** src/client_send.rs:405-413, 499-521, 568-591, 637-656 [finish_sending]. *)
Definition cm_finish_sending (m : current_message) : finish_result :=
  match m with
  | CmCommand h c fs (CaWaitingForFragmentsSent (Some lit)) =>
      (Some (CmCommand h c fs (CaWaitingForLiteralAccepted lit)), None)
  | CmCommand h c fs (CaWaitingForFragmentsSent None) =>
      (None, Some (CvCommand h c))
  | CmCommand _ _ _ _ => (Some m, None)
  | CmAuthenticate h ca AaWaitingForAuthenticateSent =>
      (Some (CmAuthenticate h ca AaWaitingForAuthenticateResponse),
       Some (CvAuthenticate h))
  | CmAuthenticate h ca AaWaitingForAuthenticateDataSent =>
      (Some (CmAuthenticate h ca AaWaitingForAuthenticateResponse), None)
  | CmAuthenticate _ _ _ => (Some m, None)
  | CmIdle h t IaWaitingForIdleSent =>
      (Some (CmIdle h t IaWaitingForIdleResponse), Some (CvIdle h))
  | CmIdle h t IaWaitingForIdleDoneSent => (None, Some (CvIdleDone h))
  | CmIdle _ _ _ => (Some m, None)
  end.

(** Result of [ClientSendState::next]: [Ok(event)], [Err(Io::Output)] or a panic. *)
Inductive cs_result : Type :=
| CsOk (e : option cs_event)
| CsOutput (b : bytes)
| CsPanic.

(** The part of src/client_send.rs:296-321 after the current message is determined. *)
Definition cs_progress (q : list (handle * command)) (m : current_message)
  : csend * cs_result :=
  let '(out, m1) := cm_push_to_buffer m in
  match out with
  | [] =>
      let '(m2, ev) := cm_finish_sending m1 in
      ({| cs_queue := q; cs_current := m2 |}, CsOk ev)
  | _ :: _ => ({| cs_queue := q; cs_current := Some m1 |}, CsOutput out)
  end.

(** src/client_send.rs:273-323 [next]. *)
Definition cs_next (K : Codecs) (s : csend) : csend * cs_result :=
  match cs_current s with
  | Some m => cs_progress (cs_queue s) m
  | None =>
      match cs_queue s with
      | [] => (s, CsOk None)
      | (h, c) :: q =>
          match queued_start K h c with
          | Panic => ({| cs_queue := q; cs_current := None |}, CsPanic)
          | Val m => cs_progress q m
          end
      end
  end.
