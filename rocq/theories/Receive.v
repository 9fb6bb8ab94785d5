(** Model of src/receive.rs. *)
From Coq Require Import List NArith Bool PeanoNat.
From Verif Require Import Base Types Codec.
Import ListNotations.

(** src/receive.rs:192-202 [NextFragment]. *)
Inductive next_fragment : Type :=
| NfLine (seen_bytes_in_line : nat)
| NfLiteral (len : N).

(** src/receive.rs:204-210 [NextFragment::start_new_line]. *)
Definition start_new_line : next_fragment := NfLine 0.

(** src/receive.rs:7-19 [ReceiveState]; the codec is passed as an argument to
    [rs_next] instead of being a field. *)
Record rstate : Type := RState {
  rs_relaxed : bool;
  rs_max : option N;
  rs_frag : next_fragment;
  rs_seen : nat;
  rs_buf : bytes
}.

(** src/receive.rs:26-40 [with_read_buffer]. *)
Definition rs_with_read_buffer (relaxed : bool) (mx : option N) (buf : bytes) : rstate :=
  {| rs_relaxed := relaxed; rs_max := mx; rs_frag := start_new_line;
     rs_seen := 0; rs_buf := buf |}.

(** src/receive.rs:22-24 [new]. *)
Definition rs_new (relaxed : bool) (mx : option N) : rstate :=
  rs_with_read_buffer relaxed mx [].

Definition rs_set_frag (s : rstate) (f : next_fragment) : rstate :=
  {| rs_relaxed := rs_relaxed s; rs_max := rs_max s; rs_frag := f;
     rs_seen := rs_seen s; rs_buf := rs_buf s |}.

Definition rs_set_seen (s : rstate) (n : nat) : rstate :=
  {| rs_relaxed := rs_relaxed s; rs_max := rs_max s; rs_frag := rs_frag s;
     rs_seen := n; rs_buf := rs_buf s |}.

(** src/receive.rs:42-44 [enqueue_input]. *)
Definition rs_enqueue_input (s : rstate) (x : bytes) : rstate :=
  {| rs_relaxed := rs_relaxed s; rs_max := rs_max s; rs_frag := rs_frag s;
     rs_seen := rs_seen s; rs_buf := rs_buf s ++ x |}.

(** src/receive.rs:46-49 [start_literal]; reserving memory is not modelled. *)
Definition rs_start_literal (s : rstate) (len : N) : rstate :=
  rs_set_frag s (NfLiteral len).

(** src/receive.rs:51-55 [finish_message]; [BytesMut::advance] panics if asked to advance
    beyond the end. *)
Definition rs_finish_message (s : rstate) : res rstate :=
  if Nat.leb (rs_seen s) (length (rs_buf s))
  then Val {| rs_relaxed := rs_relaxed s; rs_max := rs_max s; rs_frag := start_new_line;
              rs_seen := 0; rs_buf := skipn (rs_seen s) (rs_buf s) |}
  else Panic.

(** src/receive.rs:57-61 [discard_message]. *)
Definition rs_discard_message (s : rstate) : res (rstate * bytes) :=
  bind (slice 0 (rs_seen s) (rs_buf s)) (fun d =>
  bind (rs_finish_message s) (fun s' => Val (s', d))).

(** src/receive.rs:164-168 [max_readable_bytes]: the minimum of buffer length and limit. *)
Definition rs_max_readable (s : rstate) : nat :=
  match rs_max s with
  | None => length (rs_buf s)
  | Some m => if N.leb (N.of_nat (length (rs_buf s))) m
              then length (rs_buf s) else N.to_nat m
  end.

(** [Some(max_readable_bytes) == self.max_message_size] (src/receive.rs:104,147). *)
Definition rs_at_limit (s : rstate) (max_readable : nat) : bool :=
  match rs_max s with
  | None => false
  | Some m => N.eqb (N.of_nat max_readable) m
  end.

(** [iter().position(|item| *item == b'\n')] (src/receive.rs:228). *)
Fixpoint position_lf (l : bytes) : option nat :=
  match l with
  | [] => None
  | b :: l' => if is_lf b then Some 0 else option_map S (position_lf l')
  end.

(** src/receive.rs:227-234 [find_crlf]: [None] or the position of the line feed and
    whether a carriage return is missing. *)
Definition find_crlf (buf : bytes) (start : nat) (relaxed : bool)
  : res (option (nat * bool)) :=
  bind (slice start (length buf) buf) (fun tl =>
  match position_lf tl with
  | None => Val None
  | Some i =>
      let lf_position := start + i in
      match nth_error buf (lf_position - 1) with
      | Some b => Val (Some (lf_position, negb relaxed && negb (is_cr b)))
      | None => if relaxed then Val (Some (lf_position, false)) else Panic
      end
  end).

(** Result of [ReceiveState::next] (src/receive.rs:180-188 and [Interrupt]). *)
Inductive rcv (M L : Type) : Type :=
| RcvMsg (m : M)
| RcvNeedMore
| RcvLit (l : L)
| RcvMalformed
| RcvBareLf
| RcvTooLong
| RcvPanic
| RcvFuel.
Arguments RcvMsg {M L} m.
Arguments RcvNeedMore {M L}.
Arguments RcvLit {M L} l.
Arguments RcvMalformed {M L}.
Arguments RcvBareLf {M L}.
Arguments RcvTooLong {M L}.
Arguments RcvPanic {M L}.
Arguments RcvFuel {M L}.

(** src/receive.rs:81-134 [progress_line]. *)
Definition progress_line {M L} (dec : bytes -> dec_result M L) (s : rstate)
    (seen_bytes_in_line : nat) : rstate * rcv M L :=
  let max_readable := rs_max_readable s in
  match slice (rs_seen s) max_readable (rs_buf s) with
  | Panic => (s, RcvPanic)
  | Val window =>
    match find_crlf window seen_bytes_in_line (rs_relaxed s) with
    | Panic => (s, RcvPanic)
    | Val None =>
        let s1 := rs_set_frag s (NfLine (length (rs_buf s) - rs_seen s)) in
        if rs_at_limit s max_readable
        then (rs_set_seen s1 max_readable, RcvTooLong)
        else (s1, RcvNeedMore)
    | Val (Some (lf_position, expected_crlf_got_lf)) =>
        let s1 := rs_set_frag (rs_set_seen s (rs_seen s + (lf_position + 1)))
                              start_new_line in
        if expected_crlf_got_lf then (s1, RcvBareLf)
        else
          match slice 0 (rs_seen s1) (rs_buf s1) with
          | Panic => (s1, RcvPanic)
          | Val w =>
              match dec w with
              | DecOk [] m => (s1, RcvMsg m)
              | DecOk (_ :: _) _ => (s1, RcvPanic)
              | DecLit l => (s1, RcvLit l)
              | DecFailed | DecIncomplete => (s1, RcvMalformed)
              end
          end
    end
  end.

(** src/receive.rs:136-162 [progress_literal]. The subtraction of line 141 underflows
    (panic in debug builds) if [seen_bytes] exceeds the readable bytes. *)
Definition progress_literal {M L} (s : rstate) (len : N) : rstate * option (rcv M L) :=
  let max_readable := rs_max_readable s in
  if Nat.ltb max_readable (rs_seen s) then (s, Some RcvPanic)
  else
    let unseen := max_readable - rs_seen s in
    if N.ltb (N.of_nat unseen) len then
      if rs_at_limit s max_readable
      then (rs_set_seen s max_readable, Some RcvTooLong)
      else (s, Some RcvNeedMore)
    else
      (rs_set_seen (rs_set_frag s start_new_line) (rs_seen s + N.to_nat len), None).

(** src/receive.rs:63-79 [next]. The loop runs at most twice because
    [progress_literal] is always followed by a line. *)
Definition rs_next {M L} (dec : bytes -> dec_result M L) (s : rstate)
  : rstate * rcv M L :=
  match rs_frag s with
  | NfLine k => progress_line dec s k
  | NfLiteral n =>
      match progress_literal s n with
      | (s1, Some r) => (s1, r)
      | (s1, None) =>
          match rs_frag s1 with
          | NfLine k => progress_line dec s1 k
          | NfLiteral _ => (s1, RcvFuel)
          end
      end
  end.

(** src/receive.rs:170-177 [change_codec]. *)
Definition rs_change_codec (s : rstate) : rstate :=
  rs_with_read_buffer (rs_relaxed s) (rs_max s) (rs_buf s).
