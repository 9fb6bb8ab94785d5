(** Specification of message framing, independent of the incremental algorithm of
    src/receive.rs.

    A message is a sequence of lines and literals. A line extends to the first line
    feed. After each line the codec is asked about the whole message read so far: the
    message is complete, malformed, or a literal of a given length follows. An accepted
    literal is taken verbatim, whatever bytes it contains. *)
From Coq Require Import List NArith.
From Verif Require Import Base Codec.
Import ListNotations.

(** A line: exactly one line feed, at its end. *)
Definition is_line (l : bytes) : Prop :=
  exists l0, l = l0 ++ [LF] /\ ~ In LF l0.

Definition ends_crlf (l : bytes) : Prop := exists l0, l = l0 ++ [CR; LF].

(** What became of a message. *)
Inductive outcome (M L : Type) : Type :=
| OMsg (m : M)          (** decoded *)
| OMalformed            (** decoder failed *)
| OBareLf               (** a line does not end with CR LF *)
| ORejected (l : L)     (** announced literal not accepted *)
| OTrailing (m : M).    (** decoded, but the decoder left bytes over: violates the
                            contract of the decoder *)
Arguments OMsg {M L} m.
Arguments OMalformed {M L}.
Arguments OBareLf {M L}.
Arguments ORejected {M L} l.
Arguments OTrailing {M L} m.

Section Framing.
  Context {M L : Type}.
  (** decoder, line ending mode, and the accepted literals with their length *)
  Variable dec : bytes -> dec_result M L.
  Variable relaxed : bool.
  Variable accept : L -> option N.

  Definition line_ok (l : bytes) : Prop := relaxed = true \/ ends_crlf l.

  (** [verdict w l o]: the message [w], whose last line is [l], ends with outcome [o]. *)
  Inductive verdict (w l : bytes) : outcome M L -> Prop :=
  | v_bare : relaxed = false -> ~ ends_crlf l -> verdict w l OBareLf
  | v_msg : forall m, line_ok l -> dec w = DecOk [] m -> verdict w l (OMsg m)
  | v_failed : line_ok l -> dec w = DecFailed -> verdict w l OMalformed
  | v_incomplete : line_ok l -> dec w = DecIncomplete -> verdict w l OMalformed
  | v_rejected : forall i, line_ok l -> dec w = DecLit i -> accept i = None ->
      verdict w l (ORejected i)
  | v_trailing : forall b r m, line_ok l -> dec w = DecOk (b :: r) m ->
      verdict w l (OTrailing m).

  (** [scan p w ls o]: having read [p], the bytes [w] complete the message; [ls] are the
      literals accepted in [w]. *)
  Inductive scan : bytes -> bytes -> list L -> outcome M L -> Prop :=
  | scan_end : forall p l o,
      is_line l -> verdict (p ++ l) l o -> scan p l [] o
  | scan_lit : forall p l i n d w ls o,
      is_line l -> line_ok l ->
      dec (p ++ l) = DecLit i -> accept i = Some n ->
      N.of_nat (length d) = n ->
      scan (p ++ l ++ d) w ls o ->
      scan p (l ++ d ++ w) (i :: ls) o.

  (** [opened p ls n]: [p] is the beginning of a message, up to and including the line that
      announces its last literal so far; [ls] are the literals, [n] the length of the last
      one (0 when there is none). *)
  Inductive opened : bytes -> list L -> N -> Prop :=
  | op_start : opened [] [] 0
  | op_lit : forall p ls n d l i m,
      opened p ls n -> N.of_nat (length d) = n ->
      is_line l -> line_ok l ->
      dec (p ++ d ++ l) = DecLit i -> accept i = Some m ->
      opened (p ++ d ++ l) (ls ++ [i]) m.

  (** [w] is one complete message. *)
  Definition framed (w : bytes) (ls : list L) (o : outcome M L) : Prop := scan [] w ls o.

  (** [b] starts with a complete message. *)
  Definition has_message (b : bytes) : Prop :=
    exists w r ls o, b = w ++ r /\ framed w ls o.
End Framing.

(** The part of the input that may be looked at with size limit [mx]. *)
Definition within (mx : option N) (b : bytes) : bytes :=
  match mx with
  | None => b
  | Some m => if N.leb (N.of_nat (length b)) m then b else firstn (N.to_nat m) b
  end.
