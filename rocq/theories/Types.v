(** Messages exchanged by client and server, events and errors.

    The types of [imap-types] are reduced to the cases that the code of /repo
    distinguishes; all other payload is an opaque byte string. *)
From Coq Require Import List NArith.
From Verif Require Import Base.
Import ListNotations.

Definition tag := bytes.

(** [imap_types::core::Vec1]: non-empty list. *)
Record vec1 (A : Type) : Type := Vec1 { v1_hd : A; v1_tl : list A }.
Arguments Vec1 {A} v1_hd v1_tl.
Arguments v1_hd {A} v.
Arguments v1_tl {A} v.

Definition v1_list {A} (v : vec1 A) : list A := v1_hd v :: v1_tl v.

(** [imap_types::auth::AuthMechanism], cases of proxy/src/util.rs:120-131. *)
Inductive auth_mech : Type :=
| AMPlain | AMLogin | AMXOAuth2
| AMScramSha1 | AMScramSha256 | AMScramSha1Plus | AMScramSha256Plus
| AMOther (name : bytes).

(** [imap_types::response::Capability], cases of proxy/src/util.rs:103-114. *)
Inductive capability : Type :=
| CapImap4Rev1
| CapAuth (m : auth_mech)
| CapSaslIr
| CapQuota | CapQuotaRes (r : bytes) | CapQuotaSet
| CapMove
| CapLiteralPlus | CapLiteralMinus
| CapUnselect
| CapId
| CapIdle
| CapOther (name : bytes).

(** [imap_types::response::Code], cases of proxy/src/util.rs:22 and
    proxy/src/proxy.rs:385-386. *)
Inductive code : Type :=
| CodeCapability (caps : vec1 capability)
| CodeAlert
| CodeOther (c : bytes).

(** [imap_types::command::CommandBody], cases of src/client_send.rs:341-380. *)
Inductive cmd_body : Type :=
| BAuthenticate (mechanism : auth_mech) (initial_response : option bytes)
| BIdle
| BOther (payload : bytes).

(** [imap_types::command::Command]. *)
Record command : Type := Command { ctag : tag; cbody : cmd_body }.

(** src/types.rs:14-18 [CommandAuthenticate]. *)
Record command_authenticate : Type := CommandAuthenticate {
  ca_tag : tag;
  ca_mechanism : auth_mech;
  ca_initial_response : option bytes
}.

(** src/types.rs:20-30 [From<CommandAuthenticate> for Command]. *)
Definition command_of_authenticate (ca : command_authenticate) : command :=
  {| ctag := ca_tag ca;
     cbody := BAuthenticate (ca_mechanism ca) (ca_initial_response ca) |}.

(** [imap_types::response::{StatusKind, StatusBody, Status}], as matched in
    src/client_send.rs:57-63 and proxy/src/util.rs:54-69. *)
Inductive status_kind : Type := SkOk | SkNo | SkBad.

Record status_body : Type := StatusBody {
  sb_kind : status_kind;
  sb_code : option code;
  sb_text : bytes
}.

Inductive status : Type :=
| StTagged (t : tag) (b : status_body)
| StUntagged (b : status_body)
| StBye (c : option code) (text : bytes).

(** [imap_types::response::Data], cases of proxy/src/util.rs:38. *)
Inductive data : Type :=
| DCapability (caps : vec1 capability)
| DOther (payload : bytes).

(** [imap_types::response::CommandContinuationRequest]. *)
Inductive ccr : Type :=
| CcrBasic (c : option code) (text : bytes)
| CcrBase64 (d : bytes).

(** [imap_types::response::Response], cases of src/client.rs:171-228. *)
Inductive response : Type :=
| RStatus (s : status)
| RData (d : data)
| RCcr (c : ccr).

(** [imap_types::response::Greeting]. *)
Inductive greeting_kind : Type := GkOk | GkPreAuth | GkBye.

Record greeting : Type := Greeting {
  g_kind : greeting_kind;
  g_code : option code;
  g_text : bytes
}.

(** [imap_types::auth::AuthenticateData]. *)
Inductive auth_data : Type :=
| ADContinue (d : bytes)
| ADCancel.

(** [imap_types::core::LiteralMode], [imap_codec::encode::Fragment]. *)
Inductive lit_mode : Type := LSync | LNonSync.

Inductive fragment : Type :=
| FLine (d : bytes)
| FLiteral (d : bytes) (m : lit_mode).

Definition frag_data (f : fragment) : bytes :=
  match f with FLine d => d | FLiteral d _ => d end.

(** src/handle.rs:12-15 [RawHandle] (also [CommandHandle], src/client.rs:291, and
    [ResponseHandle], src/server.rs:509). *)
Record handle : Type := Handle { h_gen : N; h_id : N }.

(** src/client.rs:310-376 [Event]. *)
Inductive cevent : Type :=
| CeGreetingReceived (g : greeting)
| CeCommandSent (h : handle) (c : command)
| CeCommandRejected (h : handle) (c : command) (s : status)
| CeAuthenticateStarted (h : handle)
| CeAuthenticateContinuationRequestReceived (h : handle) (r : ccr)
| CeAuthenticateStatusReceived (h : handle) (ca : command_authenticate) (s : status)
| CeIdleCommandSent (h : handle)
| CeIdleAccepted (h : handle) (r : ccr)
| CeIdleRejected (h : handle) (s : status)
| CeIdleDoneSent (h : handle)
| CeDataReceived (d : data)
| CeStatusReceived (s : status)
| CeContinuationRequestReceived (r : ccr).

(** src/client.rs:379-384 [Error]. *)
Inductive cerror : Type :=
| CerrExpectedCrlfGotLf (discarded : bytes)
| CerrMalformedMessage (discarded : bytes).

(** src/server.rs:528-570 [Event]. *)
Inductive sevent : Type :=
| SeGreetingSent (g : greeting)
| SeResponseSent (h : handle) (r : response)
| SeCommandReceived (c : command)
| SeCommandAuthenticateReceived (ca : command_authenticate)
| SeAuthenticateDataReceived (d : auth_data)
| SeIdleCommandReceived (t : tag)
| SeIdleDoneReceived.

(** src/server.rs:573-582 [Error]. *)
Inductive serror : Type :=
| SerrExpectedCrlfGotLf (discarded : bytes)
| SerrMalformedMessage (discarded : bytes)
| SerrLiteralTooLong (discarded : bytes)
| SerrCommandTooLong (discarded : bytes).

(** Result of [State::next] (src/lib.rs:22-73) and of the internal
    [progress_send]/[progress_receive] (where it can also be [INone], i.e.
    [Ok(None)]). [IPanic]: the Rust code panics. [IFuel]: artefact of the model, the
    bound of a loop was exceeded; proved impossible. *)
Inductive ires (Ev Er : Type) : Type :=
| IEvent (e : Ev)
| INone
| INeedMore
| IOutput (b : bytes)
| IError (e : Er)
| IPanic
| IFuel.
Arguments IEvent {Ev Er} e.
Arguments INone {Ev Er}.
Arguments INeedMore {Ev Er}.
Arguments IOutput {Ev Er} b.
Arguments IError {Ev Er} e.
Arguments IPanic {Ev Er}.
Arguments IFuel {Ev Er}.
