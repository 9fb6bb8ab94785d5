(** Vocabulary for statements about the program around the proxy (Service.v). *)
From Coq Require Import List NArith Bool PeanoNat.
From Verif Require Import Base Types Codec Handle Client Server Stream StreamMachine ProxyUtil Proxy SpecProxy Service.
Import ListNotations.

Section Views.
Context {K : Codecs} {Tc Ts : tls}.

(** Service [i]: its configuration, and what its task does; the task of its [k]-th client. *)
Definition cfg_at (w : world K Tc Ts) (i : nat) : option service :=
  option_map v_cfg (nth_error (w_svcs w) i).
Definition listen_at (w : world K Tc Ts) (i : nat) : option listen :=
  option_map v_listen (nth_error (w_svcs w) i).
Definition tasks_at (w : world K Tc Ts) (i : nat) : list (task K Tc Ts) :=
  match nth_error (w_svcs w) i with Some v => v_tasks v | None => [] end.
Definition task_at (w : world K Tc Ts) (i k : nat) : option (task K Tc Ts) := nth_error (tasks_at w i) k.

(** Whom an action is for: the task of service [i], or that of its [k]-th client. *)
Definition who (a : wact Tc Ts) : nat * option nat :=
  match a with
  | WBind i _ | WAccept i _ _ | WAccepted i _ => (i, None)
  | WConnect i k _ _ _ | WConnected i k _ | WTalk i k _ => (i, Some k)
  end.

(** What happened in the conversation of this client. *)
Definition conversation_of (i k : nat) (L : list (wlog K)) : list (plog K) :=
  flat_map (fun e => match e with WL j m e => if Nat.eqb i j && Nat.eqb k m then [e] else [] end) L.

(** TLS is configured, towards the clients and towards the server. *)
Definition tls_to_clients (c : service) : bool := match sv_bind c with BindTls _ _ _ => true | _ => false end.
Definition tls_to_server (c : service) : bool := match sv_connect c with ConnectTls _ _ => true | _ => false end.

(** Where a service listens, where it connects to, and whether with TLS. *)
Definition bind_point (b : bind_cfg) : bool * bytes * N :=
  match b with BindInsecure h p => (false, h, p) | BindTls h p _ => (true, h, p) end.
Definition connect_point (c : connect_cfg) : bool * bytes * N :=
  match c with ConnectInsecure h p => (false, h, p) | ConnectTls h p => (true, h, p) end.

(** A new stream, which uses TLS if and only if [b]. *)
Definition new_stream {T : tls} (b : bool) (s : stream T) : Prop :=
  if b then exists t, s = stream_tls T t else s = stream_insecure T.

(** A run of the program. *)
Definition program_runs (fuel : nat) (cfg : list service) (w : world K Tc Ts) (L : list (wlog K)) : Prop :=
  exists acts, world_run K Tc Ts fuel (world_new K Tc Ts cfg) acts = (w, L).

(** At most [n] clients were accepted. *)
Definition clients_at_most (n : N) (w : world K Tc Ts) : Prop :=
  forall xs : list (nat * nat), NoDup xs -> (forall x, In x xs -> task_at w (fst x) (snd x) <> None) ->
  (N.of_nat (length xs) <= n)%N.
End Views.

(** The handles that a conversation was given: for commands (by its [Client]), and for responses
    (by its [Server]). *)
Definition command_handles {K} (l : list (plog K)) : list handle :=
  flat_map (fun x => match snd x with ClEnqueue _ h => [h] | _ => [] end) (calls_to_server l).
Definition response_handles {K} (l : list (plog K)) : list handle :=
  flat_map (fun x => match snd x with
    | SlEnqueue _ h
    | SlAuthContinue _ (inl h) | SlAuthFinish _ (inl h)
    | SlIdleAccept _ (inl h) | SlIdleReject _ (inl h) => [h]
    | _ => []
    end) (calls_to_client l).

(** [str::rsplit_once(':')], as used by the standard library to find host and port. *)
Fixpoint rsplit_colon (x : bytes) : option (bytes * bytes) :=
  match x with
  | [] => None
  | b :: x' =>
      match rsplit_colon x' with
      | Some (h, p) => Some (b :: h, p)
      | None => if Byte.eqb b x3a then Some ([], x') else None
      end
  end.

(** Value of a decimal number. *)
Definition digit (b : byte) : option N :=
  let n := Byte.to_N b in
  if (N.leb 48 n && N.leb n 57)%bool then Some (n - 48)%N else None.
Fixpoint parse_from (acc : N) (x : bytes) : option N :=
  match x with
  | [] => Some acc
  | b :: x' => match digit b with Some d => parse_from (10 * acc + d)%N x' | None => None end
  end.
Definition parse (x : bytes) : option N := match x with [] => None | _ => parse_from 0 x end.
