(** [Client] and [Server] as states driven by [Stream], and the calls that a stream makes. *)
From Coq Require Import List NArith Bool PeanoNat.
From Verif Require Import Base Types Codec Handle Receive ClientSend Client ServerSend Server Stream.
Import ListNotations.

(** Calls that a state sees, in order: by the application, and by the stream. *)
Inductive scall (M : machine) : Type :=
| ScCall (o : m_op M)
| ScGive (b : bytes)
| ScNext.
Arguments ScCall {M} o. Arguments ScGive {M} b. Arguments ScNext {M}.

Definition call_step (M : machine) (m : m_st M) (c : scall M) : option (m_st M * xlog M) :=
  match c with
  | ScCall o => match m_call M m o with Some (m', r) => Some (m', XCall o r) | None => None end
  | ScGive b => match m_enqueue M m b with Some m' => Some (m', XGive b) | None => None end
  | ScNext => match m_next M m with Some (m', r) => Some (m', XNext r) | None => None end
  end.

(** Running a state alone; [None]: panic. *)
Fixpoint call_run (M : machine) (m : m_st M) (cs : list (scall M)) : option (m_st M * list (xlog M)) :=
  match cs with
  | [] => Some (m, [])
  | c :: cs' =>
      match call_step M m c with
      | None => None
      | Some (m', e) =>
          match call_run M m' cs' with
          | None => None
          | Some (m'', l) => Some (m'', e :: l)
          end
      end
  end.

(** The calls in a log of the stream, and their entries. *)
Fixpoint calls {M} (l : list (xlog M)) : list (scall M) :=
  match l with
  | [] => []
  | XCall o _ :: l' => ScCall o :: calls l'
  | XGive b :: l' => ScGive b :: calls l'
  | XNext _ :: l' => ScNext :: calls l'
  | _ :: l' => calls l'
  end.
Fixpoint call_entries {M} (l : list (xlog M)) : list (xlog M) :=
  match l with
  | [] => []
  | (XCall _ _ | XGive _ | XNext _) as e :: l' => e :: call_entries l'
  | _ :: l' => call_entries l'
  end.

(** ** Client *)

(** Calls of the application; the stream makes the others. *)
Inductive capp : Type :=
| CaEnqueueCommand (c : command)
| CaSetAuthenticateData (d : auth_data)
| CaSetIdleDone.
Definition capp_op (o : capp) : cop :=
  match o with
  | CaEnqueueCommand c => CopEnqueueCommand c
  | CaSetAuthenticateData d => CopSetAuthenticateData d
  | CaSetIdleDone => CopSetIdleDone
  end.

(** src/client.rs:255-283 [impl State for Client]. *)
Definition mres_of {Ev Er} (r : ires Ev Er) : option (mres Ev Er) :=
  match r with
  | IEvent e => Some (MEvent e)
  | INeedMore => Some MNeedMore
  | IOutput b => Some (MOutput b)
  | IError e => Some (MError e)
  | INone | IPanic | IFuel => None
  end.

Definition client_machine (K : Codecs) : machine := {|
  m_st := client;
  m_op := capp;
  m_ret := clog;
  m_ev := cevent;
  m_er := cerror;
  m_call c o :=
    match client_step K c (capp_op o) with
    | (Some c', [e]) => Some (c', e)
    | _ => None
    end;
  m_enqueue c b := match client_enqueue_input c b with Val c' => Some c' | Panic => None end;
  m_next c :=
    let '(c', _, r) := client_next K c in
    match mres_of r with Some r' => Some (c', r') | None => None end
|}.

Definition client_cop {K} (c : scall (client_machine K)) : cop :=
  match c with ScCall o => capp_op o | ScGive b => CopEnqueueInput b | ScNext => CopNext end.

(** What the stream sees of a log of the client. *)
Definition client_view {K} (e : clog) : list (xlog (client_machine K)) :=
  match e with
  | ClEnqueue c h => [XCall (CaEnqueueCommand c : m_op (client_machine K)) (ClEnqueue c h)]
  | ClSetAuth d r => [XCall (CaSetAuthenticateData d : m_op (client_machine K)) (ClSetAuth d r)]
  | ClSetDone r => [XCall (CaSetIdleDone : m_op (client_machine K)) (ClSetDone r)]
  | ClInput b => [XGive b]
  | ClNext r => match mres_of r with Some r' => [@XNext (client_machine K) r'] | None => [] end
  | ClRx _ | ClPanic => []
  end.

(** ** Server *)

Inductive sapp : Type :=
| SaEnqueue (r : response)
| SaAuthenticateContinue (q : ccr)
| SaAuthenticateFinish (t : status)
| SaIdleAccept (q : ccr)
| SaIdleReject (t : status).
Definition sapp_op (o : sapp) : sop :=
  match o with
  | SaEnqueue r => SopEnqueue r
  | SaAuthenticateContinue q => SopAuthenticateContinue q
  | SaAuthenticateFinish t => SopAuthenticateFinish t
  | SaIdleAccept q => SopIdleAccept q
  | SaIdleReject t => SopIdleReject t
  end.

(** src/server.rs [impl State for Server]. *)
Definition server_machine (K : Codecs) : machine := {|
  m_st := server;
  m_op := sapp;
  m_ret := slog;
  m_ev := sevent;
  m_er := serror;
  m_call c o :=
    match server_step K c (sapp_op o) with
    | (Some c', [e]) => Some (c', e)
    | _ => None
    end;
  m_enqueue c b := match server_enqueue_input c b with Val c' => Some c' | Panic => None end;
  m_next c :=
    let '(c', _, r) := server_next K c in
    match mres_of r with Some r' => Some (c', r') | None => None end
|}.

Definition server_sop {K} (c : scall (server_machine K)) : sop :=
  match c with ScCall o => sapp_op o | ScGive b => SopEnqueueInput b | ScNext => SopNext end.

Definition server_view {K} (e : slog) : list (xlog (server_machine K)) :=
  match e with
  | SlEnqueue r h => [XCall (SaEnqueue r : m_op (server_machine K)) (SlEnqueue r h)]
  | SlAuthContinue q r =>
      [XCall (SaAuthenticateContinue q : m_op (server_machine K)) (SlAuthContinue q r)]
  | SlAuthFinish t r =>
      [XCall (SaAuthenticateFinish t : m_op (server_machine K)) (SlAuthFinish t r)]
  | SlIdleAccept q r => [XCall (SaIdleAccept q : m_op (server_machine K)) (SlIdleAccept q r)]
  | SlIdleReject t r => [XCall (SaIdleReject t : m_op (server_machine K)) (SlIdleReject t r)]
  | SlInput b => [XGive b]
  | SlNext r => match mres_of r with Some r' => [@XNext (server_machine K) r'] | None => [] end
  | SlRx _ | SlPanic => []
  end.
