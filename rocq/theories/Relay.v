(** A client and a server with the proxy (proxy/src/proxy.rs, see Proxy.v) between them.

    This is the setting for which the proxy is made (proxy/README.md): some client connects to
    the proxy (proxy/src/proxy.rs:79-133), which connects to some server (:140-184), and both
    may be built from this library as well. Each of the four directions is a network that
    preserves the order of the bytes and may delay and cut them arbitrarily (see Net.v). *)
From Coq Require Import List NArith Bool PeanoNat.
From Verif Require Import Base Types Codec Handle Client Server Stream StreamMachine SpecStream Net
  ProxyUtil Proxy SpecProxy.
Import ListNotations.

Section Relay.
Context (K : Codecs) (T1 T2 T3 T4 : tls) (fuel : nat).
Notation CM := (client_machine K).
Notation SM := (server_machine K).

(** [r_in], [r_out]: bytes under way from the client to the proxy and back. [r_up], [r_down]:
    bytes under way from the proxy to the server and back. *)
Record relay : Type := Relay {
  r_client : xstate T1 CM;
  r_proxy : pstate K T2 T3;
  r_server : xstate T4 SM;
  r_in : bytes;
  r_out : bytes;
  r_up : bytes;
  r_down : bytes
}.

Inductive rlog : Type := RC (e : xlog CM) | RP (e : plog K) | RS (e : xlog SM).

(** Actions of the environment. [RFrom...], [RTo...] deliver the next [n] bytes. The others do
    not bring bytes; they include errors of the sockets and a premature end of file. *)
Inductive ract : Type :=
| RClient (a : act CM)
| RServer (a : act SM)
| RProxy (a : bool * io)
| RFromClient (n : nat)
| RToClient (n : nat)
| RToServer (n : nat)
| RFromServer (n : nat).

(** The proxy waits for bytes of its client ([false]) or of the server ([true]). *)
Definition proxy_reading (p : pstate K T2 T3) (b : bool) : bool :=
  match p, b with
  | PsGreeting _ s, true => reading (x_f s)
  | PsLoop c _, false => reading (x_f c)
  | PsLoop _ s, true => reading (x_f s)
  | _, _ => false
  end.

(** The proxy acts; what its sockets accept is under way. *)
Definition proxy_acts (gp : hgen) (z : relay) (a : bool * io) : relay * list rlog :=
  let '(p, l) := pstep K T2 T3 fuel gp (r_proxy z) a in
  (Relay (r_client z) p (r_server z)
     (r_in z) (r_out z ++ xwritten (at_client l)) (r_up z ++ xwritten (at_server l)) (r_down z),
   map RP l).

(** [gp]: see [pstep]. *)
Definition relay_step (gp : hgen) (z : relay) (a : ract) : relay * list rlog :=
  match a with
  | RClient a =>
      if conjures a then (z, [])
      else
        let '(x, l) := xstep T1 CM fuel (r_client z) a in
        (Relay x (r_proxy z) (r_server z)
           (r_in z ++ xwritten l) (r_out z) (r_up z) (r_down z), map RC l)
  | RServer a =>
      if conjures a then (z, [])
      else
        let '(x, l) := xstep T4 SM fuel (r_server z) a in
        (Relay (r_client z) (r_proxy z) x
           (r_in z) (r_out z) (r_up z) (r_down z ++ xwritten l), map RS l)
  | RProxy a =>
      if conjures (io_act SM (snd a)) then (z, []) else proxy_acts gp z a
  | RToClient n =>
      match firstn n (r_out z), reading (x_f (r_client z)) with
      | b :: bs, true =>
          let '(x, l) := xstep T1 CM fuel (r_client z) (ARead (Some (b :: bs))) in
          (Relay x (r_proxy z) (r_server z)
             (r_in z ++ xwritten l) (skipn n (r_out z)) (r_up z) (r_down z), map RC l)
      | _, _ => (z, [])
      end
  | RToServer n =>
      match firstn n (r_up z), reading (x_f (r_server z)) with
      | b :: bs, true =>
          let '(x, l) := xstep T4 SM fuel (r_server z) (ARead (Some (b :: bs))) in
          (Relay (r_client z) (r_proxy z) x
             (r_in z) (r_out z) (skipn n (r_up z)) (r_down z ++ xwritten l), map RS l)
      | _, _ => (z, [])
      end
  | RFromClient n =>
      match firstn n (r_in z), proxy_reading (r_proxy z) false with
      | b :: bs, true =>
          proxy_acts gp
            (Relay (r_client z) (r_proxy z) (r_server z)
               (skipn n (r_in z)) (r_out z) (r_up z) (r_down z))
            (false, IoRead (Some (b :: bs)))
      | _, _ => (z, [])
      end
  | RFromServer n =>
      match firstn n (r_down z), proxy_reading (r_proxy z) true with
      | b :: bs, true =>
          proxy_acts gp
            (Relay (r_client z) (r_proxy z) (r_server z)
               (r_in z) (r_out z) (r_up z) (skipn n (r_down z)))
            (true, IoRead (Some (b :: bs)))
      | _, _ => (z, [])
      end
  end.

Fixpoint relay_run (gp : hgen) (z : relay) (acts : list ract) : relay * list rlog :=
  match acts with
  | [] => (z, [])
  | a :: acts' =>
      let '(z1, l1) := relay_step gp z a in
      let '(z2, l2) := relay_run gp z1 acts' in (z2, l1 ++ l2)
  end.

(** A new client, a proxy that has just connected (proxy/src/proxy.rs:187-194), and a new
    server. *)
Definition relay_new (s1 : stream T1) (s2 : stream T2) (s3 : stream T3) (s4 : stream T4)
  (relaxed : bool) (o : soptions) (gc gq gs : hgen) (gr : greeting) : relay :=
  Relay (@XState T1 CM s1 (client_new gc relaxed) FIdle) (proxy_start K T2 T3 s2 s3 gq)
    (@XState T4 SM s4 (server_new gs o gr) FIdle) [] [] [] [].
End Relay.

Arguments Relay {K T1 T2 T3 T4}. Arguments r_client {K T1 T2 T3 T4} r.
Arguments r_proxy {K T1 T2 T3 T4} r. Arguments r_server {K T1 T2 T3 T4} r.
Arguments r_in {K T1 T2 T3 T4} r. Arguments r_out {K T1 T2 T3 T4} r.
Arguments r_up {K T1 T2 T3 T4} r. Arguments r_down {K T1 T2 T3 T4} r.
Arguments RC {K} e. Arguments RP {K} e. Arguments RS {K} e.
Arguments RClient {K} a. Arguments RServer {K} a. Arguments RProxy {K} a.
Arguments RFromClient {K} n. Arguments RToClient {K} n. Arguments RToServer {K} n.
Arguments RFromServer {K} n.
