(** Model of the helpers of the integration tests: integration-test/src/mock.rs,
    client_tester.rs, server_tester.rs, codecs.rs, runtime.rs and test_setup.rs.

    A test is a list of phases, one for each call of [Runtime::run2] or
    [Runtime::run2_and_select]; a phase is a program for each of the two sides. The schedule
    chooses which side is polled and how many bytes the sockets accept and deliver. Not
    modelled: the timeout of [Runtime::run], logging, and the socket errors (on which a test
    fails). *)
From Coq Require Import List NArith Bool PeanoNat.
From Verif Require Import Base Types Codec Handle Receive ClientSend Client ServerSend Server Stream StreamMachine.
Import ListNotations.

(** ** The two sides *)

(** What a step of a side means for the instruction that it executes. *)
Inductive verdict : Type :=
| VGoing
| VDone
| VPanic.

(** A side of a test. [e_poll], [e_read]: [None] if the side waits for something else. [e_out]:
    the bytes that the side is writing to the socket; [e_wrote]: the socket accepted the given
    number of them. [e_drop]: the future is dropped. *)
Record side : Type := {
  e_st : Type;
  e_ins : Type;
  e_poll : e_ins -> e_st -> option (e_st * verdict);
  e_read : e_ins -> e_st -> bytes -> option (e_st * verdict);
  e_out : e_st -> bytes;
  e_wrote : e_ins -> e_st -> nat -> e_st * verdict;
  e_drop : e_st -> e_st
}.

(** *** integration-test/src/mock.rs *)

(** mock.rs:16-20 [Mock]. [mk_send]: the rest of the bytes of [write_all]. *)
Record mock : Type := Mock { mk_buf : bytes; mk_send : option bytes }.
Definition mock_new : mock := Mock [] None.

Inductive mins : Type := MSend (b : bytes) | MReceive (b : bytes).

(** mock.rs:45-52 [send]: [write_all] returns at once if there is nothing to write. *)
Definition mock_send (m : mock) (b : bytes) : mock * verdict :=
  match b with
  | [] => (Mock (mk_buf m) None, VDone)
  | _ => (Mock (mk_buf m) (Some b), VGoing)
  end.

(** mock.rs:54-77 [receive], one iteration. [VGoing]: reads. *)
Definition mock_receive (m : mock) (want : bytes) : mock * verdict :=
  let n := length want in
  if Nat.ltb (length (mk_buf m)) n then
    (m, if bytes_eqb (firstn (length (mk_buf m)) want) (mk_buf m) then VGoing else VPanic)
  else if bytes_eqb want (firstn n (mk_buf m)) then
    (Mock (skipn n (mk_buf m)) (mk_send m), VDone)
  else (m, VPanic).

Definition mock_end : side := {|
  e_st := mock;
  e_ins := mins;
  e_poll i m :=
    match i with
    | MSend b => match mk_send m with None => Some (mock_send m b) | Some _ => None end
    | MReceive b => match mock_receive m b with (_, VGoing) => None | x => Some x end
    end;
  e_read i m b :=
    match i with
    | MSend _ => None
    | MReceive want =>
        match mock_receive m want with
        | (_, VGoing) => Some (mock_receive (Mock (mk_buf m ++ b) (mk_send m)) want)
        | _ => None
        end
    end;
  e_out m := match mk_send m with Some b => b | None => [] end;
  e_wrote i m n :=
    match mk_send m with
    | Some b => mock_send m (skipn n b)
    | None => (m, VGoing)
    end;
  e_drop m := Mock (mk_buf m) None
|}.

(** *** integration-test/src/codecs.rs *)
Section Codecs.
Context (K : Codecs).

(** codecs.rs:64-171: the only message, and nothing else. [None]: panic. *)
Definition only {M L} (r : dec_result M L) : option M :=
  match r with DecOk [] m => Some m | _ => None end.
Definition dec_gr (b : bytes) : option greeting := only (dec_greeting K b).
Definition dec_cmd (b : bytes) : option command := only (dec_command K b).
Definition dec_res (b : bytes) : option response := only (dec_response K b).
Definition dec_ccr (b : bytes) : option ccr :=
  match dec_res b with Some (RCcr q) => Some q | _ => None end.
Definition dec_data (b : bytes) : option data :=
  match dec_res b with Some (RData d) => Some d | _ => None end.
Definition dec_status (b : bytes) : option status :=
  match dec_res b with Some (RStatus s) => Some s | _ => None end.
Definition dec_auth (b : bytes) : option auth_data := only (dec_authdata K b).

(** codecs.rs:173-251: and the bytes are what the message is encoded to. *)
Definition normalized {M} (enc : M -> list fragment) (b : bytes) (x : option M) : option M :=
  match x with
  | Some m => if bytes_eqb (frags_bytes (enc m)) b then Some m else None
  | None => None
  end.
Definition dec_gr_n (b : bytes) := normalized (enc_greeting K) b (dec_gr b).
Definition dec_cmd_n (b : bytes) := normalized (enc_command K) b (dec_cmd b).
Definition dec_ccr_n (b : bytes) := normalized (fun q => enc_response K (RCcr q)) b (dec_ccr b).
Definition dec_data_n (b : bytes) := normalized (fun d => enc_response K (RData d)) b (dec_data b).
Definition dec_status_n (b : bytes) := normalized (fun s => enc_response K (RStatus s)) b (dec_status b).
Definition dec_auth_n (b : bytes) := normalized (enc_authdata K) b (dec_auth b).
End Codecs.

(** ** Equality of what is compared by the tests *)
Lemma bytes_eqb_ne : forall a b, bytes_eqb a b = false -> a <> b.
Proof. intros a b H E. subst b. rewrite bytes_eqb_refl in H. discriminate. Qed.
Lemma bytes_eqb_true : forall a b, bytes_eqb a b = true -> a = b.
Proof. intros a b. apply bytes_eqb_eq. Qed.
Definition bytes_dec (a b : bytes) : {a = b} + {a <> b} :=
  match bytes_eqb a b as x return bytes_eqb a b = x -> {a = b} + {a <> b} with
  | true => fun E => left (bytes_eqb_true a b E)
  | false => fun E => right (bytes_eqb_ne a b E)
  end eq_refl.
Ltac eqdec := decide equality; auto using N.eq_dec, bytes_dec, Bool.bool_dec, Nat.eq_dec.
Definition obytes_dec (a b : option bytes) : {a = b} + {a <> b}. eqdec. Defined.
Definition mech_dec (a b : auth_mech) : {a = b} + {a <> b}. eqdec. Defined.
Definition cap_dec (a b : capability) : {a = b} + {a <> b}. decide equality; auto using bytes_dec, mech_dec. Defined.
Definition caps_dec (a b : vec1 capability) : {a = b} + {a <> b}.
decide equality; auto using list_eq_dec, cap_dec. Defined.
Definition code_dec (a b : code) : {a = b} + {a <> b}. decide equality; auto using bytes_dec, caps_dec. Defined.
Definition ocode_dec (a b : option code) : {a = b} + {a <> b}. decide equality; auto using code_dec. Defined.
Definition handle_dec (a b : handle) : {a = b} + {a <> b}. eqdec. Defined.
Definition body_dec (a b : cmd_body) : {a = b} + {a <> b}. decide equality; auto using bytes_dec, mech_dec, obytes_dec. Defined.
Definition command_dec (a b : command) : {a = b} + {a <> b}. decide equality; auto using bytes_dec, body_dec. Defined.
Definition ca_dec (a b : command_authenticate) : {a = b} + {a <> b}.
decide equality; auto using bytes_dec, mech_dec, obytes_dec. Defined.
Definition kind_dec (a b : status_kind) : {a = b} + {a <> b}. decide equality. Defined.
Definition sbody_dec (a b : status_body) : {a = b} + {a <> b}.
decide equality; auto using bytes_dec, ocode_dec, kind_dec. Defined.
Definition status_dec (a b : status) : {a = b} + {a <> b}.
decide equality; auto using bytes_dec, ocode_dec, sbody_dec. Defined.
Definition data_dec (a b : data) : {a = b} + {a <> b}. decide equality; auto using bytes_dec, caps_dec. Defined.
Definition ccr_dec (a b : ccr) : {a = b} + {a <> b}. decide equality; auto using bytes_dec, ocode_dec. Defined.
Definition response_dec (a b : response) : {a = b} + {a <> b}.
decide equality; auto using status_dec, data_dec, ccr_dec. Defined.
Definition gkind_dec (a b : greeting_kind) : {a = b} + {a <> b}. decide equality. Defined.
Definition greeting_dec (a b : greeting) : {a = b} + {a <> b}.
decide equality; auto using bytes_dec, ocode_dec, gkind_dec. Defined.
Definition auth_dec (a b : auth_data) : {a = b} + {a <> b}. decide equality; auto using bytes_dec. Defined.

(** [assert_eq!] *)
Definition same {A} (dec : forall a b : A, {a = b} + {a <> b}) (x : option A) (y : A) : bool :=
  match x with Some a => if dec a y then true else false | None => false end.

(** *** integration-test/src/client_tester.rs *)

(** There is no TLS in the tests: a [tls] without sessions. *)
Definition no_tls : tls := {|
  t_st := Empty_set;
  t_wants_read _ := false;
  t_read_tls _ _ := None;
  t_process _ := None;
  t_read t := (t, TrError);
  t_write _ _ := None;
  t_flush _ := None;
  t_wants_write _ := false;
  t_write_tls _ := None
|}.

(** How a future ended, if it did; [Some None]: panic. *)
Fixpoint outcome {M} (l : list (xlog M)) : option (option (sret M)) :=
  match l with
  | [] => None
  | XRet r :: _ => Some (Some r)
  | (XPanic | XHang) :: _ => Some None
  | _ :: l' => outcome l'
  end.

(** Answer to an event in a loop of src/tests.rs. *)
Inductive reaction (O : Type) : Type :=
| RBreak
| RCalls (os : list O)
| RPanic.
Arguments RBreak {O}. Arguments RCalls {O} os. Arguments RPanic {O}.

Section Client.
Context (K : Codecs).
Notation CM := (client_machine K).

(** client_tester.rs:15-18, 380-384. The variables of the tests that hold an enqueued command
    or its handle always hold the last one. *)
Record ctester : Type := CTester { ct_x : xstate no_tls CM; ct_cmd : option (handle * command) }.

(** What is expected of [next], line numbers of client_tester.rs. *)
Inductive cexpect : Type :=
| CxGreeting (b : bytes)              (** 36-48 [receive_greeting] *)
| CxSent                              (** 77-89 [progress_command] *)
| CxIdleSent                          (** 91-102 [progress_idle] *)
| CxIdleDoneSent                      (** 104-115 [progress_idle_done] *)
| CxAuthStarted                       (** 117-128 [progress_authenticate] *)
| CxRejected (b : bytes)              (** 130-152 [progress_rejected_command] *)
| CxNothing                           (** 154-159 [progress_internal_commands] *)
| CxData (b : bytes)                  (** 189-201 [receive_data] *)
| CxStatus (b : bytes)                (** 203-215 [receive_status] *)
| CxIdleAccepted (b : bytes)          (** 217-237 [receive_idle_accepted] *)
| CxIdleRejected (b : bytes)          (** 239-256 [receive_idle_rejected] *)
| CxAuthContinue (b : bytes)          (** 258-278 *)
| CxAuthStatus (c b : bytes)          (** 280-306 [receive_authenticate_status] *)
| CxLf (b : bytes)                    (** 324-337 *)
| CxMalformed (b : bytes).            (** 339-352 *)

Definition my (t : ctester) (h : handle) : bool :=
  match ct_cmd t with Some (h', _) => if handle_dec h h' then true else false | None => false end.
Definition mine (t : ctester) (h : handle) (c : command) : bool :=
  my t h && same command_dec (option_map snd (ct_cmd t)) c.

Definition c_meets (t : ctester) (x : cexpect) (r : sret CM) : bool :=
  match x, r with
  | CxGreeting b, RetEvent (CeGreetingReceived g) => same greeting_dec (dec_gr K b) g
  | CxSent, RetEvent (CeCommandSent h c) => mine t h c
  | CxIdleSent, RetEvent (CeIdleCommandSent h) => my t h
  | CxIdleDoneSent, RetEvent (CeIdleDoneSent h) => my t h
  | CxAuthStarted, RetEvent (CeAuthenticateStarted h) => my t h
  | CxRejected b, RetEvent (CeCommandRejected h c s) => mine t h c && same status_dec (dec_status K b) s
  | CxData b, RetEvent (CeDataReceived d) => same data_dec (dec_data K b) d
  | CxStatus b, RetEvent (CeStatusReceived s) => same status_dec (dec_status K b) s
  | CxIdleAccepted b, RetEvent (CeIdleAccepted h q) => my t h && same ccr_dec (dec_ccr K b) q
  | CxIdleRejected b, RetEvent (CeIdleRejected h s) => my t h && same status_dec (dec_status K b) s
  | CxAuthContinue b, RetEvent (CeAuthenticateContinuationRequestReceived h q) =>
      my t h && same ccr_dec (dec_ccr K b) q
  | CxAuthStatus c b, RetEvent (CeAuthenticateStatusReceived h ca s) =>
      my t h && same command_dec (dec_cmd_n K c) (command_of_authenticate ca) &&
      same status_dec (dec_status_n K b) s
  | CxLf b, RetState (CerrExpectedCrlfGotLf d) => same bytes_dec (Some b) d
  | CxMalformed b, RetState (CerrMalformedMessage d) => same bytes_dec (Some b) d
  | _, _ => false
  end.

(** Instructions of a test for the client. The functions [send_command], [send_idle] and so on
    of client_tester.rs:161-187 are two of them. [CiLoop]: a loop of src/tests.rs. *)
Inductive cins : Type :=
| CiEnqueue (b : bytes)               (** 50-55 [enqueue_command] *)
| CiIdleDone                          (** 57-63 [set_idle_done] *)
| CiAuthData (b : bytes)              (** 65-75 [set_authenticate_data] *)
| CiNext (x : cexpect)
| CiLoop (f : cevent -> reaction capp).

Definition c_set (t : ctester) (x : xstate no_tls CM) : ctester := CTester x (ct_cmd t).

(** Calls that return nothing of interest. *)
Fixpoint c_all (t : ctester) (os : list capp) : ctester * verdict :=
  match os with
  | [] => (t, VGoing)
  | o :: os' =>
      match xstep no_tls CM 0 (ct_x t) (@ACall CM o) with
      | (x, [XCall _ _]) => c_all (c_set t x) os'
      | (x, _) => (c_set t x, VPanic)
      end
  end.

(** The end of a step of the stream. *)
Definition c_after (i : cins) (t : ctester) (l : list (xlog CM)) : ctester * verdict :=
  match outcome l with
  | None => (t, VGoing)
  | Some None => (t, VPanic)
  | Some (Some r) =>
      match i with
      | CiNext x => (t, if c_meets t x r then VDone else VPanic)
      | CiLoop f =>
          match r with
          | RetEvent e =>
              match f e with
              | RBreak => (t, VDone)
              | RCalls os => c_all t os
              | RPanic => (t, VPanic)
              end
          | _ => (t, VPanic)
          end
      | _ => (t, VPanic)
      end
  end.

Definition c_poll (i : cins) (t : ctester) : option (ctester * verdict) :=
  match x_f (ct_x t) with
  | FIdle =>
      match i with
      | CiEnqueue b =>
          match dec_cmd_n K b with
          | None => Some (t, VPanic)
          | Some c =>
              match xstep no_tls CM 0 (ct_x t) (@ACall CM (CaEnqueueCommand c)) with
              | (x, [XCall _ (ClEnqueue _ h)]) => Some (CTester x (Some (h, c)), VDone)
              | (x, _) => Some (c_set t x, VPanic)
              end
          end
      | CiIdleDone =>
          match xstep no_tls CM 0 (ct_x t) (@ACall CM CaSetIdleDone) with
          | (x, [XCall _ (ClSetDone (Some h))]) => Some (c_set t x, if my t h then VDone else VPanic)
          | (x, _) => Some (c_set t x, VPanic)
          end
      | CiAuthData b =>
          match dec_auth_n K b with
          | None => Some (t, VPanic)
          | Some d =>
              match xstep no_tls CM 0 (ct_x t) (@ACall CM (CaSetAuthenticateData d)) with
              | (x, [XCall _ (ClSetAuth _ (inl h))]) => Some (c_set t x, if my t h then VDone else VPanic)
              | (x, _) => Some (c_set t x, VPanic)
              end
          end
      | CiNext _ | CiLoop _ =>
          let '(x, l) := xstep no_tls CM 0 (ct_x t) (@ANext CM) in Some (c_after i (c_set t x) l)
      end
  | _ => None
  end.

Definition c_tester_new (g : hgen) (relaxed : bool) : ctester :=
  CTester (XState (stream_insecure no_tls) (client_new g relaxed : m_st CM) FIdle) None.

Definition client_end : side := {|
  e_st := ctester;
  e_ins := cins;
  e_poll := c_poll;
  e_read i t b :=
    if reading (x_f (ct_x t)) then
      let '(x, l) := xstep no_tls CM 0 (ct_x t) (@ARead CM (Some b)) in Some (c_after i (c_set t x) l)
    else None;
  e_out t := if writing (x_f (ct_x t)) then x_wbuf (x_s (ct_x t)) else [];
  e_wrote i t n :=
    let '(x, l) := xstep no_tls CM 0 (ct_x t) (@AWrite CM (Some n)) in c_after i (c_set t x) l;
  e_drop t := c_set t (fst (xstep no_tls CM 0 (ct_x t) (@ACancel CM)))
|}.
End Client.

(** *** integration-test/src/server_tester.rs *)
Section Server.
Context (K : Codecs).
Notation SM := (server_machine K).

(** server_tester.rs:13-17, 328-335, 356-359. [st_x] is [None] in the state [Connected]. *)
Record stester : Type := STester {
  st_opts : soptions;
  st_gen : hgen;
  st_x : option (xstate no_tls SM);
  st_sent : option (handle * response)
}.

Inductive sexpect : Type :=
| SxGreeted (b : bytes)               (** 35-59 [send_greeting] *)
| SxSent                              (** 135-147 [progress_response] *)
| SxNothing                           (** 149-154 [progress_internal_responses] *)
| SxLf (b : bytes)                    (** 197-210 *)
| SxMalformed (b : bytes)             (** 212-225 *)
| SxLiteralTooLong (b : bytes)        (** 227-240 *)
| SxCommandTooLong (b : bytes)        (** 242-255 *)
| SxCommand (b : bytes)               (** 256-268 [receive_command] *)
| SxIdle (b : bytes)                  (** 270-282 [receive_idle] *)
| SxIdleDone                          (** 284-293 [receive_idle_done] *)
| SxAuth (b : bytes)                  (** 295-309 [receive_authenticate_command] *)
| SxAuthData (b : bytes).             (** 311-323 [receive_authenticate_data] *)

Definition s_meets (t : stester) (x : sexpect) (r : sret SM) : bool :=
  match x, r with
  | SxGreeted b, RetEvent (SeGreetingSent g) => same greeting_dec (dec_gr_n K b) g
  | SxSent, RetEvent (SeResponseSent h q) =>
      match st_sent t with
      | Some (h', q') => same handle_dec (Some h') h && same response_dec (Some q') q
      | None => false
      end
  | SxLf b, RetState (SerrExpectedCrlfGotLf d) => same bytes_dec (Some b) d
  | SxMalformed b, RetState (SerrMalformedMessage d) => same bytes_dec (Some b) d
  | SxLiteralTooLong b, RetState (SerrLiteralTooLong d) => same bytes_dec (Some b) d
  | SxCommandTooLong b, RetState (SerrCommandTooLong d) => same bytes_dec (Some b) d
  | SxCommand b, RetEvent (SeCommandReceived c) => same command_dec (dec_cmd K b) c
  | SxIdle b, RetEvent (SeIdleCommandReceived t) => same bytes_dec (option_map ctag (dec_cmd K b)) t
  | SxIdleDone, RetEvent SeIdleDoneReceived => true
  | SxAuth b, RetEvent (SeCommandAuthenticateReceived ca) =>
      same command_dec (dec_cmd K b) (command_of_authenticate ca)
  | SxAuthData b, RetEvent (SeAuthenticateDataReceived d) => same auth_dec (dec_auth K b) d
  | _, _ => false
  end.

(** Instructions of a test for the server. [SiGreet]: [Server::new] of [send_greeting]; then
    [SiNext (SxGreeted _)]. *)
Inductive sins : Type :=
| SiGreet (b : bytes)
| SiData (b : bytes)                  (** 61-69 [enqueue_data] *)
| SiStatus (b : bytes)                (** 71-79 [enqueue_status] *)
| SiIdleAccept (b : bytes)            (** 81-94 [set_idle_accept] *)
| SiIdleReject (b : bytes)            (** 96-106 [set_idle_reject] *)
| SiAuthContinue (b : bytes)          (** 108-121 [set_authenticate_continue] *)
| SiAuthFinish (b : bytes)            (** 123-133 [set_authenticate_finish] *)
| SiNext (x : sexpect)
| SiLoop (f : sevent -> reaction sapp).

Definition s_set (t : stester) (x : xstate no_tls SM) : stester :=
  STester (st_opts t) (st_gen t) (Some x) (st_sent t).

Fixpoint s_all (t : stester) (x : xstate no_tls SM) (os : list sapp) : stester * verdict :=
  match os with
  | [] => (s_set t x, VGoing)
  | o :: os' =>
      match xstep no_tls SM 0 x (@ACall SM o) with
      | (x', [XCall _ _]) => s_all t x' os'
      | (x', _) => (s_set t x', VPanic)
      end
  end.

Definition s_after (i : sins) (t : stester) (x : xstate no_tls SM) (l : list (xlog SM)) : stester * verdict :=
  let t1 := s_set t x in
  match outcome l with
  | None => (t1, VGoing)
  | Some None => (t1, VPanic)
  | Some (Some r) =>
      match i with
      | SiNext e => (t1, if s_meets t1 e r then VDone else VPanic)
      | SiLoop f =>
          match r with
          | RetEvent e =>
              match f e with
              | RBreak => (t1, VDone)
              | RCalls os => s_all t1 x os
              | RPanic => (t1, VPanic)
              end
          | _ => (t1, VPanic)
          end
      | _ => (t1, VPanic)
      end
  end.

(** The handle that a call returns; [None]: it is refused. *)
Definition s_handle (e : slog) : option handle :=
  match e with
  | SlEnqueue _ h => Some h
  | SlAuthContinue _ (inl h) => Some h
  | SlAuthFinish _ (inl h) => Some h
  | SlIdleAccept _ (inl h) => Some h
  | SlIdleReject _ (inl h) => Some h
  | _ => None
  end.

Definition s_do (t : stester) (x : xstate no_tls SM) (q : option (sapp * response)) : stester * verdict :=
  match q with
  | None => (t, VPanic)
  | Some (o, r) =>
      match xstep no_tls SM 0 x (@ACall SM o) with
      | (x', [XCall _ e]) =>
          match s_handle e with
          | Some h => (STester (st_opts t) (st_gen t) (Some x') (Some (h, r)), VDone)
          | None => (s_set t x', VPanic)
          end
      | (x', _) => (s_set t x', VPanic)
      end
  end.

Definition s_poll (i : sins) (t : stester) : option (stester * verdict) :=
  match i, st_x t with
  | SiGreet b, None =>
      match dec_gr_n K b with
      | None => Some (t, VPanic)
      | Some g =>
          Some (s_set t (XState (stream_insecure no_tls) (server_new (st_gen t) (st_opts t) g : m_st SM) FIdle), VDone)
      end
  | SiGreet _, Some _ => Some (t, VPanic)
  | _, None => Some (t, VPanic)
  | _, Some x =>
      match x_f x with
      | FIdle =>
          match i with
          | SiNext _ | SiLoop _ =>
              let '(x', l) := xstep no_tls SM 0 x (@ANext SM) in Some (s_after i t x' l)
          | SiData b =>
              Some (s_do t x (option_map (fun d => (SaEnqueue (RData d), RData d)) (dec_data_n K b)))
          | SiStatus b =>
              Some (s_do t x (option_map (fun s => (SaEnqueue (RStatus s), RStatus s)) (dec_status_n K b)))
          | SiIdleAccept b =>
              Some (s_do t x (option_map (fun q => (SaIdleAccept q, RCcr q)) (dec_ccr_n K b)))
          | SiIdleReject b =>
              Some (s_do t x (option_map (fun s => (SaIdleReject s, RStatus s)) (dec_status_n K b)))
          | SiAuthContinue b =>
              Some (s_do t x (option_map (fun q => (SaAuthenticateContinue q, RCcr q)) (dec_ccr_n K b)))
          | SiAuthFinish b =>
              Some (s_do t x (option_map (fun s => (SaAuthenticateFinish s, RStatus s)) (dec_status_n K b)))
          | SiGreet _ => None
          end
      | _ => None
      end
  end.

Definition s_tester_new (g : hgen) (o : soptions) : stester := STester o g None None.

Definition server_end : side := {|
  e_st := stester;
  e_ins := sins;
  e_poll := s_poll;
  e_read i t b :=
    match st_x t with
    | Some x =>
        if reading (x_f x) then
          let '(x', l) := xstep no_tls SM 0 x (@ARead SM (Some b)) in Some (s_after i t x' l)
        else None
    | None => None
    end;
  e_out t :=
    match st_x t with
    | Some x => if writing (x_f x) then x_wbuf (x_s x) else []
    | None => []
    end;
  e_wrote i t n :=
    match st_x t with
    | Some x => let '(x', l) := xstep no_tls SM 0 x (@AWrite SM (Some n)) in s_after i t x' l
    | None => (t, VGoing)
    end;
  e_drop t :=
    match st_x t with
    | Some x => s_set t (fst (xstep no_tls SM 0 x (@ACancel SM)))
    | None => t
    end
|}.
End Server.

(** ** Tests: integration-test/src/runtime.rs *)
Section Test.
Context (E1 E2 : side).

(** runtime.rs:56-62 [run2]: both futures must return. runtime.rs:64-75 [run2_and_select]: one
    must return, then the other is dropped. *)
Inductive phase : Type :=
| Both (l : list (e_ins E1)) (r : list (e_ins E2))
| Either (l : list (e_ins E1)) (r : list (e_ins E2)).

(** [tc_cap]: how many bytes the network can hold on their way in each direction. *)
Record test : Type := Test {
  tc_l : e_st E1;
  tc_r : e_st E2;
  tc_cap : nat;
  tc_phases : list phase
}.

(** [ts_ph]: number of the phase; [ts_lpc], [ts_rpc]: numbers of the next instructions of the
    two programs. *)
Record tstate : Type := TState {
  ts_l : e_st E1;
  ts_r : e_st E2;
  ts_right : bytes;
  ts_left : bytes;
  ts_ph : nat;
  ts_lpc : nat;
  ts_rpc : nat;
  ts_panic : bool
}.

Inductive choice : Type :=
| KPollL | KPollR
| KReadL (n : nat) | KReadR (n : nat)
| KWriteL (n : nat) | KWriteR (n : nat)
| KNext.

Context (t : test).

Definition tstart : tstate := TState (tc_l t) (tc_r t) [] [] 0 0 0 false.

Definition prog_l (p : phase) := match p with Both l _ | Either l _ => l end.
Definition prog_r (p : phase) := match p with Both _ r | Either _ r => r end.
Definition is_both (p : phase) : bool := match p with Both _ _ => true | Either _ _ => false end.

(** The phase is over. *)
Definition over (p : phase) (s : tstate) : bool :=
  let l := Nat.leb (length (prog_l p)) (ts_lpc s) in
  let r := Nat.leb (length (prog_r p)) (ts_rpc s) in
  if is_both p then l && r else l || r.

(** Outcomes of a step of the left and of the right side. *)
Definition left_did (s : tstate) (rt lf : bytes) (x : e_st E1 * verdict) : tstate :=
  TState (fst x) (ts_r s) rt lf (ts_ph s)
    (match snd x with VDone => S (ts_lpc s) | _ => ts_lpc s end) (ts_rpc s)
    (match snd x with VPanic => true | _ => ts_panic s end).
Definition right_did (s : tstate) (rt lf : bytes) (x : e_st E2 * verdict) : tstate :=
  TState (ts_l s) (fst x) rt lf (ts_ph s) (ts_lpc s)
    (match snd x with VDone => S (ts_rpc s) | _ => ts_rpc s end)
    (match snd x with VPanic => true | _ => ts_panic s end).

(** [None]: the choice is not possible. *)
Definition tstep (s : tstate) (k : choice) : option tstate :=
  match nth_error (tc_phases t) (ts_ph s) with
  | None => None
  | Some p =>
      if ts_panic s then None
      else if over p s then
        match k with
        | KNext =>
            Some (TState (if is_both p then ts_l s else e_drop E1 (ts_l s))
                    (if is_both p then ts_r s else e_drop E2 (ts_r s))
                    (ts_right s) (ts_left s) (S (ts_ph s)) 0 0 false)
        | _ => None
        end
      else
        match k with
        | KNext => None
        | KPollL | KReadL _ | KWriteL _ =>
            match nth_error (prog_l p) (ts_lpc s) with
            | None => None
            | Some i =>
                match k with
                | KPollL =>
                    option_map (left_did s (ts_right s) (ts_left s)) (e_poll E1 i (ts_l s))
                | KReadL n =>
                    match firstn n (ts_left s) with
                    | [] => None
                    | b => option_map (left_did s (ts_right s) (skipn n (ts_left s))) (e_read E1 i (ts_l s) b)
                    end
                | KWriteL n =>
                    let b := firstn n (e_out E1 (ts_l s)) in
                    match b with
                    | [] => None
                    | _ =>
                        if Nat.leb (length (ts_right s) + length b) (tc_cap t) then
                          Some (left_did s (ts_right s ++ b) (ts_left s) (e_wrote E1 i (ts_l s) (length b)))
                        else None
                    end
                | _ => None
                end
            end
        | KPollR | KReadR _ | KWriteR _ =>
            match nth_error (prog_r p) (ts_rpc s) with
            | None => None
            | Some i =>
                match k with
                | KPollR =>
                    option_map (right_did s (ts_right s) (ts_left s)) (e_poll E2 i (ts_r s))
                | KReadR n =>
                    match firstn n (ts_right s) with
                    | [] => None
                    | b => option_map (right_did s (skipn n (ts_right s)) (ts_left s)) (e_read E2 i (ts_r s) b)
                    end
                | KWriteR n =>
                    let b := firstn n (e_out E2 (ts_r s)) in
                    match b with
                    | [] => None
                    | _ =>
                        if Nat.leb (length (ts_left s) + length b) (tc_cap t) then
                          Some (right_did s (ts_right s) (ts_left s ++ b) (e_wrote E2 i (ts_r s) (length b)))
                        else None
                    end
                | _ => None
                end
            end
        end
  end.

(** A schedule; choices that are not possible change nothing. *)
Fixpoint trun (s : tstate) (ks : list choice) : tstate :=
  match ks with
  | [] => s
  | k :: ks' => trun (match tstep s k with Some s' => s' | None => s end) ks'
  end.
End Test.

Arguments Both {E1 E2} l r. Arguments Either {E1 E2} l r.
Arguments Test {E1 E2}. Arguments TState {E1 E2}.
Arguments tc_l {E1 E2} t. Arguments tc_r {E1 E2} t. Arguments tc_cap {E1 E2} t.
Arguments tc_phases {E1 E2} t.
Arguments ts_l {E1 E2} t. Arguments ts_r {E1 E2} t. Arguments ts_right {E1 E2} t.
Arguments ts_left {E1 E2} t. Arguments ts_ph {E1 E2} t. Arguments ts_lpc {E1 E2} t.
Arguments ts_rpc {E1 E2} t. Arguments ts_panic {E1 E2} t.
