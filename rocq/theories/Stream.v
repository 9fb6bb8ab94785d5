(** Model of src/stream.rs: [Stream] drives a [State] (src/lib.rs:24-50) over a TCP stream,
    optionally through a TLS session.

    The asynchronous functions [next] and [flush] are cut at their await points. Between
    two await points everything is synchronous. What happens at an await point is chosen by
    the environment: an arbitrary script of actions says what the socket does, when a future
    is dropped, and what the application does in between. *)
From Coq Require Import List NArith Bool PeanoNat.
From Verif Require Import Base Types.
Import ListNotations.

(** src/lib.rs:36-73: result of [State::next]. *)
Inductive mres (Ev Er : Type) : Type :=
| MEvent (e : Ev)
| MNeedMore
| MOutput (b : bytes)
| MError (e : Er).
Arguments MEvent {Ev Er} e.
Arguments MNeedMore {Ev Er}.
Arguments MOutput {Ev Er} b.
Arguments MError {Ev Er} e.

(** src/lib.rs:24-35 trait [State], with the other calls that an application can make.
    [None]: the call panics. *)
Record machine : Type := {
  m_st : Type;
  m_op : Type;
  m_ret : Type;
  m_ev : Type;
  m_er : Type;
  m_call : m_st -> m_op -> option (m_st * m_ret);
  m_enqueue : m_st -> bytes -> option m_st;
  m_next : m_st -> option (m_st * mres m_ev m_er)
}.

(** Result of reading plaintext from a TLS session: [Ok(n)] with the bytes, an error of kind
    [WouldBlock], another error. *)
Inductive tread : Type :=
| TrData (b : bytes)
| TrWouldBlock
| TrError.

(** [rustls::Connection] as far as src/stream.rs uses it; arbitrary functions. [None]: the
    call returns an error. [t_read_tls] gets the bytes that can be read and returns how many
    it read. [t_write] returns how many bytes the session accepted. *)
Record tls : Type := {
  t_st : Type;
  t_wants_read : t_st -> bool;
  t_read_tls : t_st -> bytes -> option (t_st * nat);
  t_process : t_st -> option t_st;
  t_read : t_st -> t_st * tread;
  t_write : t_st -> bytes -> option (t_st * nat);
  t_flush : t_st -> option t_st;
  t_wants_write : t_st -> bool;
  t_write_tls : t_st -> option (t_st * bytes)
}.

(** Result of a synchronous loop. [LpFuel]: the bound of the model was exceeded. *)
Inductive lpres (A : Type) : Type :=
| LpOk (a : A)
| LpIo
| LpTls
| LpFuel.
Arguments LpOk {A} a.
Arguments LpIo {A}.
Arguments LpTls {A}.
Arguments LpFuel {A}.

Section Tls.
Context (T : tls).

(** src/stream.rs:277-290: inner loop of [decrypt]. Reading no bytes does not end it. *)
Fixpoint decrypt_read (fuel : nat) (t : t_st T) (plain : bytes) : t_st T * lpres bytes :=
  match fuel with
  | O => (t, LpFuel)
  | S fuel' =>
      match t_read T t with
      | (t1, TrWouldBlock) => (t1, LpOk plain)
      | (t1, TrError) => (t1, LpIo)
      | (t1, TrData b) => decrypt_read fuel' t1 (plain ++ b)
      end
  end.

(** src/stream.rs:266-294 [decrypt]: session, read buffer, result. *)
Fixpoint decrypt_loop (fuel : nat) (t : t_st T) (rbuf plain : bytes)
  : t_st T * bytes * lpres bytes :=
  match fuel with
  | O => (t, rbuf, LpFuel)
  | S fuel' =>
      if t_wants_read T t && negb (match rbuf with [] => true | _ => false end) then
        match t_read_tls T t rbuf with
        | None => (t, rbuf, LpIo)
        | Some (t1, n) =>
            let rbuf1 := skipn n rbuf in
            match t_process T t1 with
            | None => (t1, rbuf1, LpTls)
            | Some t2 =>
                match decrypt_read fuel t2 plain with
                | (t3, LpOk plain') => decrypt_loop fuel' t3 rbuf1 plain'
                | (t3, r) => (t3, rbuf1, r)
                end
            end
        end
      else (t, rbuf, LpOk plain)
  end.

Definition decrypt (fuel : nat) (t : t_st T) (rbuf : bytes) : t_st T * bytes * lpres bytes :=
  decrypt_loop fuel t rbuf [].

(** [std::io::Write::write_all] on the writer of the session (src/stream.rs:302): writing
    no bytes is an error. *)
Fixpoint write_all (fuel : nat) (t : t_st T) (b : bytes) : t_st T * lpres unit :=
  match b with
  | [] => (t, LpOk tt)
  | _ =>
      match fuel with
      | O => (t, LpFuel)
      | S fuel' =>
          match t_write T t b with
          | None => (t, LpIo)
          | Some (t1, O) => (t1, LpIo)
          | Some (t1, n) => write_all fuel' t1 (skipn n b)
          end
      end
  end.

(** src/stream.rs:305-308. *)
Fixpoint encrypt_loop (fuel : nat) (t : t_st T) (wbuf : bytes) : t_st T * bytes * lpres unit :=
  match fuel with
  | O => (t, wbuf, LpFuel)
  | S fuel' =>
      if t_wants_write T t then
        match t_write_tls T t with
        | None => (t, wbuf, LpIo)
        | Some (t1, b) => encrypt_loop fuel' t1 (wbuf ++ b)
        end
      else (t, wbuf, LpOk tt)
  end.

(** src/stream.rs:296-311 [encrypt]: session, write buffer, result. *)
Definition encrypt (fuel : nat) (t : t_st T) (wbuf plain : bytes)
  : t_st T * bytes * lpres unit :=
  match write_all fuel t plain with
  | (t1, LpOk _) => encrypt_loop fuel t1 wbuf
  | (t1, r) => (t1, wbuf, r)
  end.

(** src/stream.rs:21-26 [Stream], without the TCP stream itself. *)
Record stream : Type := StreamSt {
  x_tls : option (t_st T);
  x_rbuf : bytes;
  x_wbuf : bytes
}.

(** src/stream.rs:29-36 [insecure], 66-71 [tls] (after the handshake). *)
Definition stream_insecure : stream := StreamSt None [] [].
Definition stream_tls (t : t_st T) : stream := StreamSt (Some t) [] [].

Context (M : machine).

(** Result of [next] and [flush]; src/stream.rs:184-200 [Error]. *)
Inductive sret : Type :=
| RetEvent (e : m_ev M)
| RetState (e : m_er M)
| RetClosed
| RetIo
| RetTls
| RetFlushed.

(** Chronological log of what happens at the boundaries of the stream. *)
Inductive xlog : Type :=
| XCall (o : m_op M) (r : m_ret M)           (** call by the application *)
| XGive (b : bytes)                          (** [State::enqueue_input] *)
| XNext (r : mres (m_ev M) (m_er M))         (** [State::next] *)
| XRead (b : bytes)                          (** bytes read from the socket *)
| XWrote (b : bytes)                         (** bytes written to the socket *)
| XStartNext | XStartFlush
| XRet (r : sret)                            (** the future is ready *)
| XCancel                                    (** the future is dropped *)
| XPanic
| XHang.                                     (** the future never returns *)

(** Where the future of [next] or [flush] is suspended. *)
Inductive fut : Type :=
| FIdle        (** there is no future *)
| FRead        (** src/stream.rs:146 *)
| FSelect      (** src/stream.rs:152-155 *)
| FFlushWrite  (** src/stream.rs:82 *)
| FFlushTcp    (** src/stream.rs:83 *)
| FDead.       (** panicked, or caught in an infinite loop *)

Record xstate : Type := XState { x_s : stream; x_m : m_st M; x_f : fut }.

Definition x_set_f (x : xstate) (f : fut) : xstate := XState (x_s x) (x_m x) f.

(** src/stream.rs:90-107: provide input to the state. *)
Definition sync_input (fuel : nat) (s : stream) (m : m_st M)
  : stream * option (m_st M) * list xlog * option (lpres unit) :=
  match x_tls s with
  | None =>
      match x_rbuf s with
      | [] => (s, Some m, [], None)
      | b =>
          match m_enqueue M m b with
          | None => (s, None, [XPanic], None)
          | Some m1 => (StreamSt None [] (x_wbuf s), Some m1, [XGive b], None)
          end
      end
  | Some t =>
      match decrypt fuel t (x_rbuf s) with
      | (t1, rb, LpOk b) =>
          let s1 := StreamSt (Some t1) rb (x_wbuf s) in
          match b with
          | [] => (s1, Some m, [], None)
          | _ =>
              match m_enqueue M m b with
              | None => (s1, None, [XPanic], None)
              | Some m1 => (s1, Some m1, [XGive b], None)
              end
          end
      | (t1, rb, LpIo) => (StreamSt (Some t1) rb (x_wbuf s), Some m, [], Some LpIo)
      | (t1, rb, LpTls) => (StreamSt (Some t1) rb (x_wbuf s), Some m, [], Some LpTls)
      | (t1, rb, LpFuel) => (StreamSt (Some t1) rb (x_wbuf s), Some m, [], Some LpFuel)
      end
  end.

(** src/stream.rs:124-142: take the output of the state. *)
Definition sync_output (fuel : nat) (s : stream) (b : bytes)
  : stream * option (lpres unit) :=
  match x_tls s with
  | None => (StreamSt None (x_rbuf s) (x_wbuf s ++ b), None)
  | Some t =>
      match encrypt fuel t (x_wbuf s) b with
      | (t1, wb, LpOk _) => (StreamSt (Some t1) (x_rbuf s) wb, None)
      | (t1, wb, r) => (StreamSt (Some t1) (x_rbuf s) wb, Some r)
      end
  end.

(** How a failed loop ends the future. *)
Definition fail (s : stream) (m : m_st M) (l : list xlog) (r : lpres unit)
  : xstate * list xlog :=
  match r with
  | LpIo => (XState s m FIdle, l ++ [XRet RetIo])
  | LpTls => (XState s m FIdle, l ++ [XRet RetTls])
  | _ => (XState s m FDead, l ++ [XHang])
  end.

(** src/stream.rs:145: read only, or read and write. *)
Definition next_await (s : stream) : fut :=
  match x_wbuf s with [] => FRead | _ => FSelect end.

(** src/stream.rs:90-145: one iteration of the loop of [next], up to the await point. *)
Definition sync (fuel : nat) (s : stream) (m : m_st M) : xstate * list xlog :=
  match sync_input fuel s m with
  | (s1, None, l, _) => (XState s1 m FDead, l)
  | (s1, Some m1, l, Some r) => fail s1 m1 l r
  | (s1, Some m1, l, None) =>
      match m_next M m1 with
      | None => (XState s1 m1 FDead, l ++ [XPanic])
      | Some (m2, r) =>
          let l2 := l ++ [XNext r] in
          let io (b : bytes) :=
            match sync_output fuel s1 b with
            | (s2, None) => (XState s2 m2 (next_await s2), l2)
            | (s2, Some e) => fail s2 m2 l2 e
            end in
          match r with
          | MEvent e => (XState s1 m2 FIdle, l2 ++ [XRet (RetEvent e)])
          | MError e => (XState s1 m2 FIdle, l2 ++ [XRet (RetState e)])
          | MOutput b => io b
          | MNeedMore => io []
          end
      end
  end.

(** src/stream.rs:229: [write] returns if the buffer is empty. *)
Definition flush_await (s : stream) : fut :=
  match x_wbuf s with [] => FFlushTcp | _ => FFlushWrite end.

(** src/stream.rs:74-82 [flush], up to the first await point. *)
Definition start_flush (fuel : nat) (s : stream) (m : m_st M) : xstate * list xlog :=
  match x_tls s with
  | None => (XState s m (flush_await s), [])
  | Some t =>
      match t_flush T t with
      | None => fail s m [] LpIo
      | Some t1 =>
          match sync_output fuel (StreamSt (Some t1) (x_rbuf s) (x_wbuf s)) [] with
          | (s2, None) => (XState s2 m (flush_await s2), [])
          | (s2, Some e) => fail s2 m [] e
          end
      end
  end.

(** Actions of the environment. [ARead None], [AWrite None], [AFlushed false]: an error of
    the socket. [ARead (Some [])]: end of file. [AWrite (Some n)]: the socket accepted [n]
    bytes. An action that is impossible in the current state changes nothing. *)
Inductive act : Type :=
| ANext
| AFlush
| ARead (r : option bytes)
| AWrite (r : option nat)
| AFlushed (ok : bool)
| ACancel
| ACall (o : m_op M).

Definition pending (f : fut) : bool :=
  match f with FRead | FSelect | FFlushWrite | FFlushTcp => true | _ => false end.
Definition reading (f : fut) : bool :=
  match f with FRead | FSelect => true | _ => false end.
Definition writing (f : fut) : bool :=
  match f with FSelect | FFlushWrite => true | _ => false end.

Definition xstep (fuel : nat) (x : xstate) (a : act) : xstate * list xlog :=
  let s := x_s x in
  match a with
  | ANext =>
      match x_f x with
      | FIdle => let '(x', l) := sync fuel s (x_m x) in (x', XStartNext :: l)
      | _ => (x, [])
      end
  | AFlush =>
      match x_f x with
      | FIdle => let '(x', l) := start_flush fuel s (x_m x) in (x', XStartFlush :: l)
      | _ => (x, [])
      end
  | ARead r =>   (* src/stream.rs:202-223 [read] *)
      if reading (x_f x) then
        match r with
        | None => (x_set_f x FIdle, [XRet RetIo])
        | Some [] => (x_set_f x FIdle, [XRead []; XRet RetClosed])
        | Some b =>
            let '(x', l) :=
              sync fuel (StreamSt (x_tls s) (x_rbuf s ++ b) (x_wbuf s)) (x_m x) in
            (x', XRead b :: l)
        end
      else (x, [])
  | AWrite r =>  (* src/stream.rs:225-247 [write] *)
      if writing (x_f x) then
        match r with
        | None => (x_set_f x FIdle, [XRet RetIo])
        | Some O => (x_set_f x FIdle, [XWrote []; XRet RetClosed])
        | Some n =>
            if Nat.leb n (length (x_wbuf s)) then
              let s1 := StreamSt (x_tls s) (x_rbuf s) (skipn n (x_wbuf s)) in
              let l := XWrote (firstn n (x_wbuf s)) in
              match x_wbuf s1 with
              | [] =>
                  match x_f x with
                  | FSelect => let '(x', l') := sync fuel s1 (x_m x) in (x', l :: l')
                  | _ => (XState s1 (x_m x) FFlushTcp, [l])
                  end
              | _ => (XState s1 (x_m x) (x_f x), [l])
              end
            else (x, [])
        end
      else (x, [])
  | AFlushed ok =>
      match x_f x with
      | FFlushTcp => (x_set_f x FIdle, [XRet (if ok then RetFlushed else RetIo)])
      | _ => (x, [])
      end
  | ACancel => if pending (x_f x) then (x_set_f x FIdle, [XCancel]) else (x, [])
  | ACall o =>
      match x_f x with
      | FIdle =>
          match m_call M (x_m x) o with
          | None => (x_set_f x FDead, [XPanic])
          | Some (m1, r) => (XState s m1 FIdle, [XCall o r])
          end
      | _ => (x, [])
      end
  end.

Fixpoint xrun (fuel : nat) (x : xstate) (acts : list act) : xstate * list xlog :=
  match acts with
  | [] => (x, [])
  | a :: acts' =>
      let '(x1, l1) := xstep fuel x a in
      let '(x2, l2) := xrun fuel x1 acts' in (x2, l1 ++ l2)
  end.
End Tls.

Arguments x_tls {T} s. Arguments x_rbuf {T} s. Arguments x_wbuf {T} s.
Arguments StreamSt {T}.
Arguments RetEvent {M} e. Arguments RetState {M} e. Arguments RetClosed {M}.
Arguments RetIo {M}. Arguments RetTls {M}. Arguments RetFlushed {M}.
Arguments XCall {M} o r. Arguments XGive {M} b. Arguments XNext {M} r.
Arguments XRead {M} b. Arguments XWrote {M} b. Arguments XRet {M} r.
Arguments XStartNext {M}. Arguments XStartFlush {M}. Arguments XCancel {M}.
Arguments XPanic {M}. Arguments XHang {M}.
Arguments x_s {T M} x. Arguments x_m {T M} x. Arguments x_f {T M} x.
Arguments XState {T M}.
Arguments x_set_f {T M} x f.
Arguments ANext {M}. Arguments AFlush {M}. Arguments ARead {M} r. Arguments AWrite {M} r.
Arguments AFlushed {M} ok. Arguments ACancel {M}. Arguments ACall {M} o.
