(** Vocabulary for statements about streams (Stream.v): projections of the log, and laws of
    TLS sessions. *)
From Coq Require Import List NArith Bool.
From Verif Require Import Base Types Codec Server Stream StreamMachine.
Import ListNotations.

Section Spec.
Context {M : machine}.

(** All bytes read from the socket. *)
Fixpoint xread (l : list (xlog M)) : bytes :=
  match l with
  | [] => []
  | XRead b :: l' => b ++ xread l'
  | _ :: l' => xread l'
  end.

(** All bytes that the socket accepted. *)
Fixpoint xwritten (l : list (xlog M)) : bytes :=
  match l with
  | [] => []
  | XWrote b :: l' => b ++ xwritten l'
  | _ :: l' => xwritten l'
  end.

(** All bytes handed to the state. *)
Fixpoint xgiven (l : list (xlog M)) : bytes :=
  match l with
  | [] => []
  | XGive b :: l' => b ++ xgiven l'
  | _ :: l' => xgiven l'
  end.

(** All bytes that the state asked to write. *)
Fixpoint xoutputs (l : list (xlog M)) : bytes :=
  match l with
  | [] => []
  | XNext (MOutput b) :: l' => b ++ xoutputs l'
  | _ :: l' => xoutputs l'
  end.

(** Results of [State::next], results of the futures. *)
Fixpoint xnexts (l : list (xlog M)) : list (mres (m_ev M) (m_er M)) :=
  match l with
  | [] => []
  | XNext r :: l' => r :: xnexts l'
  | _ :: l' => xnexts l'
  end.
Fixpoint xrets (l : list (xlog M)) : list (sret M) :=
  match l with
  | [] => []
  | XRet r :: l' => r :: xrets l'
  | _ :: l' => xrets l'
  end.

(** Events and errors: produced by [State::next], returned by futures. *)
Fixpoint next_outcomes (l : list (xlog M)) : list (m_ev M + m_er M) :=
  match l with
  | [] => []
  | XNext (MEvent e) :: l' => inl e :: next_outcomes l'
  | XNext (MError e) :: l' => inr e :: next_outcomes l'
  | _ :: l' => next_outcomes l'
  end.
Fixpoint ret_outcomes (l : list (xlog M)) : list (m_ev M + m_er M) :=
  match l with
  | [] => []
  | XRet (RetEvent e) :: l' => inl e :: ret_outcomes l'
  | XRet (RetState e) :: l' => inr e :: ret_outcomes l'
  | _ :: l' => ret_outcomes l'
  end.

(** No future returned an error of the socket or of the TLS session. *)
Definition no_error (l : list (xlog M)) : Prop := ~ In RetIo (xrets l) /\ ~ In RetTls (xrets l).

(** The entry is [State::next]; it begins or ends a future. *)
Definition is_next (e : xlog M) : bool := match e with XNext _ => true | _ => false end.
Definition is_boundary (e : xlog M) : bool :=
  match e with XStartNext | XStartFlush | XRet _ | XCancel => true | _ => false end.
End Spec.

(** A TLS session that delivers what the peer sent. [dec t x] is the plaintext that session
    [t] will yield when the bytes [x] arrive, starting with what can be read already. *)
Record tls_receives (T : tls) (dec : t_st T -> bytes -> bytes) : Prop := {
  tr_data : forall t t' b x, t_read T t = (t', TrData b) -> dec t x = b ++ dec t' x;
  (** Reading would block: nothing is left to read, and the session asks for more. *)
  tr_block : forall t t' x, t_read T t = (t', TrWouldBlock) ->
    dec t x = dec t' x /\ dec t' [] = [] /\ t_wants_read T t' = true;
  tr_net : forall t x t1 n t2, t_read_tls T t x = Some (t1, n) -> t_process T t1 = Some t2 ->
    n <= length x /\ forall y, dec t (firstn n x ++ y) = dec t2 y;
  (** Sending does not interfere. *)
  tr_write : forall t b t' n x, t_write T t b = Some (t', n) ->
    dec t' x = dec t x /\ t_wants_read T t' = t_wants_read T t;
  tr_flush : forall t t' x, t_flush T t = Some t' ->
    dec t' x = dec t x /\ t_wants_read T t' = t_wants_read T t;
  tr_write_tls : forall t t' b x, t_write_tls T t = Some (t', b) ->
    dec t' x = dec t x /\ t_wants_read T t' = t_wants_read T t
}.

(** A TLS session whose records the peer can decrypt. [R t e p]: session [t] has emitted the
    bytes [e] so far and accepted the plaintext [p]. [peer e] is the plaintext that the
    peer obtains from [e]. *)
Record tls_sends (T : tls) (peer : bytes -> bytes) (R : t_st T -> bytes -> bytes -> Prop)
  : Prop := {
  ts_done : forall t e p, R t e p -> t_wants_write T t = false -> peer e = p;
  ts_write : forall t e p b t' n, R t e p -> t_write T t b = Some (t', n) ->
    n <= length b /\ R t' e (p ++ firstn n b);
  ts_write_tls : forall t e p t' b, R t e p -> t_write_tls T t = Some (t', b) -> R t' (e ++ b) p;
  ts_flush : forall t e p t', R t e p -> t_flush T t = Some t' -> R t' e p;
  (** Receiving does not interfere. *)
  ts_read_tls : forall t e p x t' n, R t e p -> t_read_tls T t x = Some (t', n) -> R t' e p;
  ts_process : forall t e p t', R t e p -> t_process T t = Some t' -> R t' e p;
  ts_read : forall t e p t' r, R t e p -> t_read T t = (t', r) -> R t' e p
}.

(** The loops of [decrypt] and [encrypt] end: plaintext can be read only finitely often in a
    row before reading would block, records can be emitted only finitely often, and the
    session takes at least one byte when it wants to read. *)
Record tls_finite (T : tls) (mu nu : t_st T -> nat) : Prop := {
  tf_read : forall t t' b, t_read T t = (t', TrData b) -> mu t' < mu t;
  tf_net : forall t x t' n, t_wants_read T t = true -> x <> [] ->
    t_read_tls T t x = Some (t', n) -> 0 < n;
  tf_emit : forall t t' b, t_write_tls T t = Some (t', b) -> nu t' < nu t
}.

(** The session [T], remembering the bytes that it has taken from the stream and the bytes
    that it has emitted. *)
Definition recorded (T : tls) : tls := {|
  t_st := t_st T * (bytes * bytes);
  t_wants_read t := t_wants_read T (fst t);
  t_read_tls '(t, (i, o)) x :=
    match t_read_tls T t x with
    | Some (t', n) => Some ((t', (i ++ firstn n x, o)), n)
    | None => None
    end;
  t_process '(t, r) := option_map (fun t' => (t', r)) (t_process T t);
  t_read '(t, r) := let '(t', b) := t_read T t in ((t', r), b);
  t_write '(t, r) b := option_map (fun '(t', n) => ((t', r), n)) (t_write T t b);
  t_flush '(t, r) := option_map (fun t' => (t', r)) (t_flush T t);
  t_wants_write t := t_wants_write T (fst t);
  t_write_tls '(t, (i, o)) :=
    match t_write_tls T t with
    | Some (t', b) => Some ((t', (i, o ++ b)), b)
    | None => None
    end
|}.

(** ** A server in a stream *)

(** Responses that the server sends by itself to accept or reject a literal. *)
Definition own_response (o : soptions) (r : response) : Prop :=
  r = RCcr (CcrBasic None (so_accept_text o)) \/
  exists t, r = RStatus (StTagged t (StatusBody SkBad None (so_reject_text o))).

(** [ys] is [xs] with own responses in between. *)
Inductive merged (o : soptions) : list response -> list response -> Prop :=
| mg_nil : merged o [] []
| mg_given : forall r xs ys, merged o xs ys -> merged o (r :: xs) (r :: ys)
| mg_own : forall r xs ys, own_response o r -> merged o xs ys -> merged o xs (r :: ys).

(** The response accepted by a call. *)
Definition accepted (e : slog) : list response :=
  match e with
  | SlEnqueue r _ => [r]
  | SlAuthContinue q (inl _) | SlIdleAccept q (inl _) => [RCcr q]
  | SlAuthFinish t (inl _) | SlIdleReject t (inl _) => [RStatus t]
  | _ => []
  end.

Fixpoint given {K} (l : list (xlog (server_machine K))) : list response :=
  match l with
  | [] => []
  | XCall _ r :: l' => accepted r ++ given l'
  | _ :: l' => given l'
  end.

Definition greeting_bytes (K : Codecs) (g : greeting) : bytes := frags_bytes (enc_greeting K g).
Definition responses_bytes (K : Codecs) (rs : list response) : bytes :=
  concat (map (fun r => frags_bytes (enc_response K r)) rs).
