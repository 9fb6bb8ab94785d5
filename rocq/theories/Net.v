(** Two streams (src/stream.rs, see Stream.v) connected by a network.

    /repo has no such program, but its integration tests connect a client in a stream to a
    server in a stream (integration-test/src/client_tester.rs:21-35,
    integration-test/src/server_tester.rs:20-34), and so does the proxy with others
    (proxy/src/proxy.rs). The network preserves the order of the bytes; it may delay and cut
    them arbitrarily. *)
From Coq Require Import List NArith Bool PeanoNat.
From Verif Require Import Base Stream SpecStream.
Import ListNotations.

Section Net.
Context (T1 T2 : tls) (M1 M2 : machine) (fuel : nat).

(** [n_right], [n_left]: bytes that the socket of one side accepted, and that the other side
    has not read, on their way to the right and to the left. *)
Record net : Type := Net {
  n_l : xstate T1 M1;
  n_r : xstate T2 M2;
  n_right : bytes;
  n_left : bytes
}.

(** Actions of the environment. Bytes are read only if they were written: [NToRight n]
    delivers the next [n] bytes to the right. The others are the actions of Stream.v at one
    of the two sides, including errors of the socket and a premature end of file. *)
Inductive nact : Type :=
| NLeft (a : act M1)
| NRight (a : act M2)
| NToRight (n : nat)
| NToLeft (n : nat).

(** Entries of both logs, in chronological order. *)
Inductive nlog : Type := NL (e : xlog M1) | NR (e : xlog M2).

Fixpoint lefts (l : list nlog) : list (xlog M1) :=
  match l with
  | [] => []
  | NL e :: l' => e :: lefts l'
  | NR _ :: l' => lefts l'
  end.
Fixpoint rights (l : list nlog) : list (xlog M2) :=
  match l with
  | [] => []
  | NL _ :: l' => rights l'
  | NR e :: l' => e :: rights l'
  end.

(** The action brings bytes from nowhere. *)
Definition conjures {M} (a : act M) : bool :=
  match a with ARead (Some (_ :: _)) => true | _ => false end.

Definition net_step (z : net) (a : nact) : net * list nlog :=
  match a with
  | NLeft a =>
      if conjures a then (z, [])
      else
        let '(x, l) := xstep T1 M1 fuel (n_l z) a in
        (Net x (n_r z) (n_right z ++ xwritten l) (n_left z), map NL l)
  | NRight a =>
      if conjures a then (z, [])
      else
        let '(x, l) := xstep T2 M2 fuel (n_r z) a in
        (Net (n_l z) x (n_right z) (n_left z ++ xwritten l), map NR l)
  | NToRight n =>
      match firstn n (n_right z), reading (x_f (n_r z)) with
      | b :: bs, true =>
          let '(x, l) := xstep T2 M2 fuel (n_r z) (ARead (Some (b :: bs))) in
          (Net (n_l z) x (skipn n (n_right z)) (n_left z ++ xwritten l), map NR l)
      | _, _ => (z, [])
      end
  | NToLeft n =>
      match firstn n (n_left z), reading (x_f (n_l z)) with
      | b :: bs, true =>
          let '(x, l) := xstep T1 M1 fuel (n_l z) (ARead (Some (b :: bs))) in
          (Net x (n_r z) (n_right z ++ xwritten l) (skipn n (n_left z)), map NL l)
      | _, _ => (z, [])
      end
  end.

Fixpoint net_run (z : net) (acts : list nact) : net * list nlog :=
  match acts with
  | [] => (z, [])
  | a :: acts' =>
      let '(z1, l1) := net_step z a in
      let '(z2, l2) := net_run z1 acts' in (z2, l1 ++ l2)
  end.

(** Two states in new streams; nothing under way. *)
Definition net_new (s1 : stream T1) (m1 : m_st M1) (s2 : stream T2) (m2 : m_st M2) : net :=
  Net (XState s1 m1 FIdle) (XState s2 m2 FIdle) [] [].
End Net.

Arguments Net {T1 T2 M1 M2}. Arguments n_l {T1 T2 M1 M2} n. Arguments n_r {T1 T2 M1 M2} n.
Arguments n_right {T1 T2 M1 M2} n. Arguments n_left {T1 T2 M1 M2} n.
Arguments NLeft {M1 M2} a. Arguments NRight {M1 M2} a.
Arguments NToRight {M1 M2} n. Arguments NToLeft {M1 M2} n.
Arguments NL {M1 M2} e. Arguments NR {M1 M2} e.
Arguments lefts {M1 M2} l. Arguments rights {M1 M2} l.
