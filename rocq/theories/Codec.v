(** The interface of [imap-codec] used by the code, as a record of arbitrary
    functions. Nothing is assumed about them here; laws are separate definitions that
    theorems take as explicit hypotheses. *)
From Coq Require Import List NArith.
From Verif Require Import Base Types.
Import ListNotations.

(** Result of [Decoder::decode]: [Ok((remaining, message))], or one of the errors
    [LiteralFound {..}], [Failed], [Incomplete]. [Failed] and [Incomplete] are treated
    alike at every call site (src/client.rs:117-119,151-153;
    src/server.rs:313-315,341-343,378-380). The type [L] is the payload of
    [LiteralFound]; decoders that have no such error use [Empty_set]. *)
Inductive dec_result (M L : Type) : Type :=
| DecOk (rest : bytes) (m : M)
| DecLit (l : L)
| DecFailed
| DecIncomplete.
Arguments DecOk {M L} rest m.
Arguments DecLit {M L} l.
Arguments DecFailed {M L}.
Arguments DecIncomplete {M L}.

(** [CommandDecodeError::LiteralFound { tag, length, mode }] (src/server.rs:247). *)
Record cmd_lit : Type := CmdLit { cl_tag : tag; cl_length : N; cl_mode : lit_mode }.

(** The codecs used by client and server: [GreetingCodec], [ResponseCodec],
    [CommandCodec], [AuthenticateDataCodec], [IdleDoneCodec]. The payload of
    [ResponseDecodeError::LiteralFound] is the length (src/client.rs:145). *)
Record Codecs : Type := {
  dec_greeting : bytes -> dec_result greeting Empty_set;
  dec_response : bytes -> dec_result response N;
  dec_command  : bytes -> dec_result command cmd_lit;
  dec_authdata : bytes -> dec_result auth_data Empty_set;
  dec_idledone : bytes -> dec_result unit Empty_set;
  enc_greeting : greeting -> list fragment;
  enc_response : response -> list fragment;
  enc_command  : command -> list fragment;
  enc_authdata : auth_data -> list fragment;
  enc_idledone : list fragment
}.

(** All bytes of an encoded message. *)
Definition frags_bytes (fs : list fragment) : bytes := concat (map frag_data fs).
