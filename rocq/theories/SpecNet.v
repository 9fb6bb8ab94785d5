(** Vocabulary for statements about two streams connected by a network (Net.v). *)
From Coq Require Import List NArith Bool PeanoNat.
From Verif Require Import Base Types Codec Handle ServerSend ClientSend Client Server SpecClient
  SpecServer Stream StreamMachine SpecStream System SpecSystem Net.
Import ListNotations.

Definition prefix {A} (a b : list A) : Prop := exists c, b = a ++ c.

(** Whenever bytes are given to the state at one side, the state at the other side has output
    them before: in the same order, none is missing or changed. *)
Definition causal {M1 M2} (l : list (nlog M1 M2)) : Prop :=
  forall l1 l2, l = l1 ++ l2 ->
  prefix (xgiven (rights l1)) (xoutputs (lefts l1)) /\
  prefix (xgiven (lefts l1)) (xoutputs (rights l1)).

(** The session [t2] decrypts what the session [t1] encrypts; both are as they are after the
    handshake, with nothing left to read (see C43). [dec] and [peer] are those of the laws
    of SpecStream.v. What is decrypted does not change when more bytes arrive. *)
Record tls_link (T1 T2 : tls) (t1 : t_st T1) (t2 : t_st T2)
    (peer : bytes -> bytes) (R : t_st T1 -> bytes -> bytes -> Prop)
    (dec : t_st T2 -> bytes -> bytes) : Prop := {
  tk_sends : tls_sends T1 peer R;
  tk_receives : tls_receives T2 dec;
  tk_sent : R t1 [] [];
  tk_ready : t_wants_read T2 t2 = true /\ dec t2 [] = [];
  tk_same : forall e, dec t2 e = peer e;
  tk_grows : forall e e', prefix (peer e) (peer (e ++ e'))
}.

(** ** A client in a stream, connected to a server in a stream *)

Section Talk.
Context {K : Codecs}.
Notation CM := (client_machine K).
Notation SM := (server_machine K).

(** What the applications see: the calls that they make, and the events and errors that the
    futures return. *)
Definition client_app (e : xlog CM) : list clog :=
  match e with
  | XCall _ r => [r]
  | XRet (RetEvent e) => [ClNext (IEvent (e : cevent))]
  | XRet (RetState e) => [ClNext (IError (e : cerror))]
  | _ => []
  end.
Definition server_app (e : xlog SM) : list slog :=
  match e with
  | XCall _ r => [r]
  | XRet (RetEvent e) => [SlNext (IEvent (e : sevent))]
  | XRet (RetState e) => [SlNext (IError (e : serror))]
  | _ => []
  end.
Definition app_entry (e : nlog CM SM) : list ylog :=
  match e with NL e => map YC (client_app e) | NR e => map YS (server_app e) end.
Definition app_log (L : list (nlog CM SM)) : list ylog := flat_map app_entry L.

(** A run of a new client and a new server in new streams that ends in [z] with the log [L]:
    either both streams are plain, or both are TLS sessions that understand each other, and
    no future returned an error of the socket or of the session. (Without TLS, errors of the
    socket are allowed.) *)
Inductive talk (relaxed : bool) (o : soptions) (gc gs : hgen) (gr : greeting) (T1 T2 : tls)
    (z : net T1 T2 CM SM) (L : list (nlog CM SM)) : Prop :=
| talk_plain : forall fuel acts,
    net_run T1 T2 CM SM fuel
      (net_new T1 T2 CM SM (stream_insecure T1) (client_new gc relaxed)
         (stream_insecure T2) (server_new gs o gr)) acts = (z, L) ->
    talk relaxed o gc gs gr T1 T2 z L
| talk_tls : forall fuel acts t1 t2 peer1 R1 dec1 peer2 R2 dec2,
    tls_link T1 T2 t1 t2 peer1 R1 dec1 -> tls_link T2 T1 t2 t1 peer2 R2 dec2 ->
    net_run T1 T2 CM SM fuel
      (net_new T1 T2 CM SM (stream_tls T1 t1) (client_new gc relaxed)
         (stream_tls T2 t2) (server_new gs o gr)) acts = (z, L) ->
    no_error (lefts L) -> no_error (rights L) ->
    x_f (n_l z) <> FDead -> x_f (n_r z) <> FDead ->
    talk relaxed o gc gs gr T1 T2 z L.

(** Nothing is under way, and both sides wait for bytes from the network. *)
Definition at_rest {T1 T2} (z : net T1 T2 CM SM) : Prop :=
  n_right z = [] /\ n_left z = [] /\ x_f (n_l z) = FRead /\ x_f (n_r z) = FRead.

(** What happens without decisions of the applications, except that they call [next] again
    and again: the sockets accept and deliver bytes, and nothing fails. *)
Definition calm {M} (a : act M) : Prop :=
  match a with
  | ANext | AWrite (Some (S _)) | AFlushed true => True
  | _ => False
  end.
Definition net_calm (a : nact CM SM) : Prop :=
  match a with
  | NLeft a => calm a
  | NRight a => calm a
  | NToRight _ | NToLeft _ => True
  end.

(** One such action that is possible in [z], and leads to [z']. *)
Definition net_moves {T1 T2} (fuel : nat) (z' z : net T1 T2 CM SM) : Prop :=
  exists a l, net_calm a /\ net_step T1 T2 CM SM fuel z a = (z', l) /\ l <> [].

(** [y] and [l] are a state and a log of the direct connection (System.v) in which the client
    and the server are in the same states, made and saw the same calls, and were given the
    same bytes. *)
Record same_talk (L : list (nlog CM SM)) (c : client) (s : server) (y : sys) (l : list ylog)
  : Prop := {
  st_client : y_client y = c;
  st_server : y_server y = s;
  st_clogs : flat_map client_view (clogs l) = call_entries (lefts L);
  st_slogs : flat_map server_view (slogs l) = call_entries (rights L);
  st_to_server : xoutputs (lefts L) = xgiven (rights L) ++ y_to_server y;
  st_to_client : xoutputs (rights L) = xgiven (lefts L) ++ y_to_client y
}.
End Talk.

(** Responses that the server's application was told to be sent. *)
Definition told_sent (l : list slog) : list response :=
  flat_map (fun e => match e with SeResponseSent _ r => [r] | _ => [] end) (sevents l).

(** The response by which the server rejects a command one of whose literals exceeds the
    limit. *)
Definition lit_fitsb (o : soptions) (f : fragment) : bool :=
  match f with
  | FLine _ => true
  | FLiteral d _ => (N.of_nat (length d) <=? so_max_literal_size o)%N
  end.
Definition rejection (K : Codecs) (o : soptions) (q : request) : list response :=
  match q with
  | RqCommand c =>
      if forallb (lit_fitsb o) (enc_command K c) then []
      else [RStatus (StTagged (ctag c) (StatusBody SkBad None (so_reject_text o)))]
  | _ => []
  end.

(** [ys] consists of [xs] and [rs], both in order. *)
Inductive interleaved {A} : list A -> list A -> list A -> Prop :=
| il_nil : interleaved [] [] []
| il_left : forall x xs rs ys, interleaved xs rs ys -> interleaved (x :: xs) rs (x :: ys)
| il_right : forall r xs rs ys, interleaved xs rs ys -> interleaved xs (r :: rs) (r :: ys).
