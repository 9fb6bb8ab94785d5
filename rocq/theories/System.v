(** A client and a server (src/client.rs, src/server.rs) connected by two byte streams.

    /repo has no such program, but its integration tests connect the two
    (integration-test/src/client_tester.rs, integration-test/src/server_tester.rs), and so does
    the proxy (proxy/src/proxy.rs). The network preserves the order of the bytes; it may
    delay and cut them arbitrarily. Both applications may call the API at any time. *)
From Coq Require Import List NArith Bool PeanoNat.
From Verif Require Import Base Types Codec Handle ServerSend ClientSend Client Server.
Import ListNotations.

(** [y_to_server], [y_to_client]: bytes that were written ([Interrupt::Io(Io::Output)],
    src/lib.rs:48-53) and not yet given to [enqueue_input] of the other side. *)
Record sys : Type := Sys {
  y_client : client;
  y_server : server;
  y_to_server : bytes;
  y_to_client : bytes
}.

Inductive yact : Type :=
| YClient (p : cop)        (** call of the client's API *)
| YServer (p : sop)        (** call of the server's API *)
| YToServer (n : nat)      (** the next [n] bytes arrive at the server *)
| YToClient (n : nat).     (** the next [n] bytes arrive at the client *)

(** Entries of both logs, in chronological order. *)
Inductive ylog : Type := YC (e : clog) | YS (e : slog).

Fixpoint clogs (l : list ylog) : list clog :=
  match l with
  | [] => []
  | YC e :: l' => e :: clogs l'
  | YS _ :: l' => clogs l'
  end.

Fixpoint slogs (l : list ylog) : list slog :=
  match l with
  | [] => []
  | YC _ :: l' => slogs l'
  | YS e :: l' => e :: slogs l'
  end.

(** Bytes that a call of the client's, or server's, API asked to write. *)
Fixpoint cwritten (l : list clog) : bytes :=
  match l with
  | [] => []
  | ClNext (IOutput b) :: l' => b ++ cwritten l'
  | _ :: l' => cwritten l'
  end.
Fixpoint swritten (l : list slog) : bytes :=
  match l with
  | [] => []
  | SlNext (IOutput b) :: l' => b ++ swritten l'
  | _ :: l' => swritten l'
  end.

(** [enqueue_input] is called with what the network delivers only. *)
Definition is_cinput (p : cop) : bool :=
  match p with CopEnqueueInput _ => true | _ => false end.
Definition is_sinput (p : sop) : bool :=
  match p with SopEnqueueInput _ => true | _ => false end.

(** One call; [None]: it panicked. *)
Definition sys_step (K : Codecs) (y : sys) (a : yact) : option sys * list ylog :=
  match a with
  | YClient p =>
      if is_cinput p then (Some y, [])
      else
        match client_step K (y_client y) p with
        | (Some c, l) =>
            (Some (Sys c (y_server y) (y_to_server y ++ cwritten l) (y_to_client y)), map YC l)
        | (None, l) => (None, map YC l)
        end
  | YServer p =>
      if is_sinput p then (Some y, [])
      else
        match server_step K (y_server y) p with
        | (Some s, l) =>
            (Some (Sys (y_client y) s (y_to_server y) (y_to_client y ++ swritten l)), map YS l)
        | (None, l) => (None, map YS l)
        end
  | YToServer n =>
      match server_step K (y_server y) (SopEnqueueInput (firstn n (y_to_server y))) with
      | (Some s, l) =>
          (Some (Sys (y_client y) s (skipn n (y_to_server y)) (y_to_client y)), map YS l)
      | (None, l) => (None, map YS l)
      end
  | YToClient n =>
      match client_step K (y_client y) (CopEnqueueInput (firstn n (y_to_client y))) with
      | (Some c, l) =>
          (Some (Sys c (y_server y) (y_to_server y) (skipn n (y_to_client y))), map YC l)
      | (None, l) => (None, map YC l)
      end
  end.

Fixpoint sys_run (K : Codecs) (y : sys) (acts : list yact) : option sys * list ylog :=
  match acts with
  | [] => (Some y, [])
  | a :: acts' =>
      match sys_step K y a with
      | (None, l) => (None, l)
      | (Some y', l) => let '(r, l') := sys_run K y' acts' in (r, l ++ l')
      end
  end.

(** A new client, a new server, nothing under way. *)
Definition sys_new (gc gs : hgen) (relaxed : bool) (o : soptions) (gr : greeting) : sys :=
  Sys (client_new gc relaxed) (server_new gs o gr) [] [].
