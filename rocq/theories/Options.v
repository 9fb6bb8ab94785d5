(** Model of the server's options with their setters and getters, src/server.rs:31-113.

    [Options] is [#[non_exhaustive]] and the two continuation requests are private: other crates
    get options from [default] only, and change them by assigning to the public fields and by
    the two setters. Server.v represents the two continuation requests by their texts; here they
    are kept. *)
From Coq Require Import List NArith Bool.
From Verif Require Import Base Types Codec Handle Receive ServerSend Server.
Import ListNotations.

(** src/server.rs:35-51 [Options]. *)
Record options : Type := Options {
  op_crlf_relaxed : bool;
  op_max_literal_size : N;
  op_max_command_size : N;
  op_accept_ccr : ccr;
  op_reject_ccr : ccr
}.

Section Options.
(** [CommandContinuationRequestBasic::new(None, text)] of imap-types succeeds. Arbitrary, but the
    same for a [&str], a [String] and a [Text]. *)
Context (valid : bytes -> bool).

(** [CommandContinuationRequest::basic(None, text)] of imap-types. *)
Definition ccr_basic (text : bytes) : option ccr :=
  if valid text then Some (CcrBasic None text) else None.

(** [unwrap]. *)
Definition unwrap {A} (x : option A) : res A :=
  match x with Some a => Val a | None => Panic end.

(** src/server.rs:53-71 [default]. *)
Definition options_default : res options :=
  bind (unwrap (ccr_basic dots)) (fun a =>
  bind (unwrap (ccr_basic dots)) (fun r =>
  Val {| op_crlf_relaxed := false;
         op_max_literal_size := 25 * 1024 * 1024;
         op_max_command_size := (25 * 1024 * 1024) + (64 * 1024);
         op_accept_ccr := a;
         op_reject_ccr := r |}%N)).

(** The text of a continuation request; [unreachable!()] for [Base64]. *)
Definition ccr_text (q : ccr) : res bytes :=
  match q with CcrBasic _ text => Val text | CcrBase64 _ => Panic end.

(** src/server.rs:74-79 [literal_accept_text]. *)
Definition literal_accept_text (o : options) : res bytes := ccr_text (op_accept_ccr o).
(** src/server.rs:93-98 [literal_reject_text]. *)
Definition literal_reject_text (o : options) : res bytes := ccr_text (op_reject_ccr o).

(** src/server.rs:81-91 [set_literal_accept_text]; [Some text]: the error. *)
Definition set_literal_accept_text (o : options) (text : bytes) : res (options * option bytes) :=
  if valid text then
    bind (unwrap (ccr_basic text)) (fun q =>
    Val ({| op_crlf_relaxed := op_crlf_relaxed o;
            op_max_literal_size := op_max_literal_size o;
            op_max_command_size := op_max_command_size o;
            op_accept_ccr := q;
            op_reject_ccr := op_reject_ccr o |}, None))
  else Val (o, Some text).

(** src/server.rs:100-110 [set_literal_reject_text]. *)
Definition set_literal_reject_text (o : options) (text : bytes) : res (options * option bytes) :=
  if valid text then
    bind (unwrap (ccr_basic text)) (fun q =>
    Val ({| op_crlf_relaxed := op_crlf_relaxed o;
            op_max_literal_size := op_max_literal_size o;
            op_max_command_size := op_max_command_size o;
            op_accept_ccr := op_accept_ccr o;
            op_reject_ccr := q |}, None))
  else Val (o, Some text).

(** What other crates can do with options. *)
Inductive oop : Type :=
| OopRelaxed (b : bool)
| OopMaxLiteral (n : N)
| OopMaxCommand (n : N)
| OopAccept (text : bytes)
| OopReject (text : bytes).

Definition options_step (o : options) (p : oop) : res options :=
  match p with
  | OopRelaxed b =>
      Val (Options b (op_max_literal_size o) (op_max_command_size o) (op_accept_ccr o) (op_reject_ccr o))
  | OopMaxLiteral n =>
      Val (Options (op_crlf_relaxed o) n (op_max_command_size o) (op_accept_ccr o) (op_reject_ccr o))
  | OopMaxCommand n =>
      Val (Options (op_crlf_relaxed o) (op_max_literal_size o) n (op_accept_ccr o) (op_reject_ccr o))
  | OopAccept text => bind (set_literal_accept_text o text) (fun x => Val (fst x))
  | OopReject text => bind (set_literal_reject_text o text) (fun x => Val (fst x))
  end.

Fixpoint options_run (o : options) (ps : list oop) : res options :=
  match ps with
  | [] => Val o
  | p :: ps' => bind (options_step o p) (fun o' => options_run o' ps')
  end.
End Options.

(** What the server takes of its options; a server whose options have other than [Basic]
    continuation requests cannot be represented in Server.v. *)
Definition server_options (o : options) : res soptions :=
  bind (literal_accept_text o) (fun a =>
  bind (literal_reject_text o) (fun r =>
  Val (SOptions (op_crlf_relaxed o) (op_max_literal_size o) (op_max_command_size o) a r))).

(** src/server.rs:293-302: the response to an accepted literal. *)
Definition accept_response (valid : bytes -> bool) (o : options) : res response :=
  bind (literal_accept_text o) (fun text =>
  bind (unwrap (ccr_basic valid text)) (fun q => Val (RCcr q))).

(** src/server.rs:251-262: the response to a rejected literal. [bad_ok]: [Status::bad] of
    imap-types succeeds for this text, without code. *)
Definition reject_response (bad_ok : bytes -> bool) (o : options) (t : tag) : res response :=
  bind (literal_reject_text o) (fun text =>
  bind (unwrap (if bad_ok text then Some (StTagged t (StatusBody SkBad None text)) else None))
    (fun s => Val (RStatus s))).
