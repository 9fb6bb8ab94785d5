(** A small TLS session that satisfies the laws of SpecStream.v, used in the examples. A
    record is the byte 0x17 followed by one byte of plaintext; 0x15 closes the session. *)
From Coq Require Import List NArith Bool PeanoNat Lia.
From Verif Require Import Base Stream SpecStream.
Import ListNotations.

Record toy_session : Type := ToySession {
  y_pend : bytes;    (* plaintext that was received, but not read *)
  y_half : bool;     (* half a record was received *)
  y_closed : bool;   (* the peer closed the session *)
  y_bad : bool;      (* something else was received *)
  y_queue : bytes    (* plaintext that waits to be emitted *)
}.

Definition toy_session_new : toy_session := ToySession [] false false false [].

Definition toy_feed1 (t : toy_session) (b : byte) : toy_session :=
  if y_closed t || y_bad t then t
  else if y_half t then ToySession (y_pend t ++ [b]) false false false (y_queue t)
  else if Byte.eqb b x17 then ToySession (y_pend t) true false false (y_queue t)
  else if Byte.eqb b x15 then ToySession (y_pend t) false true false (y_queue t)
  else ToySession (y_pend t) false false true (y_queue t).
Definition toy_feed (t : toy_session) (x : bytes) : toy_session := fold_left toy_feed1 x t.

Definition y_set_pend (t : toy_session) (p : bytes) : toy_session :=
  ToySession p (y_half t) (y_closed t) (y_bad t) (y_queue t).
Definition y_set_queue (t : toy_session) (q : bytes) : toy_session :=
  ToySession (y_pend t) (y_half t) (y_closed t) (y_bad t) q.

Definition toy_record (b : byte) : bytes := [x17; b].

(** [cap]: limit of the queue. [eof]: reading from a closed session yields no bytes, instead
    of an error of kind [WouldBlock]. *)
Definition toy_tls (cap : nat) (eof : bool) : tls := {|
  t_st := toy_session;
  t_wants_read t := match y_pend t with [] => negb (y_closed t && eof) | _ => false end;
  t_read_tls t x := Some (toy_feed t (firstn 3 x), Nat.min 3 (length x));
  t_process t := if y_bad t then None else Some t;
  t_read t :=
    match y_pend t with
    | [] => if y_closed t && eof then (t, TrData []) else (t, TrWouldBlock)
    | p => (y_set_pend t (skipn 2 p), TrData (firstn 2 p))
    end;
  t_write t b :=
    let n := Nat.min (length b) (cap - length (y_queue t)) in
    Some (y_set_queue t (y_queue t ++ firstn n b), n);
  t_flush t := Some t;
  t_wants_write t := match y_queue t with [] => false | _ => true end;
  t_write_tls t :=
    match y_queue t with
    | [] => None
    | q => Some (y_set_queue t (skipn 2 q), flat_map toy_record (firstn 2 q))
    end
|}.

Definition toy_dec (t : toy_session) (x : bytes) : bytes := y_pend (toy_feed t x).
Definition toy_peer (e : bytes) : bytes := toy_dec toy_session_new e.
Definition toy_rel (t : toy_session) (e p : bytes) : Prop :=
  exists q, e = flat_map toy_record q /\ p = q ++ y_queue t.

Lemma feed1_queue : forall t q b,
  toy_feed1 (y_set_queue t q) b = y_set_queue (toy_feed1 t b) q.
Proof.
  intros [p h c d q0] q b. unfold toy_feed1. cbn.
  destruct c, d, h; cbn; try reflexivity. destruct (Byte.eqb b x17); [reflexivity|].
  now destruct (Byte.eqb b x15).
Qed.

Lemma feed_queue : forall x t q, toy_feed (y_set_queue t q) x = y_set_queue (toy_feed t x) q.
Proof.
  induction x as [|b x IH]; intros t q; cbn; [reflexivity|]. rewrite feed1_queue. apply IH.
Qed.

Lemma feed1_pend : forall t a p b,
  toy_feed1 (y_set_pend t (a ++ p)) b =
  y_set_pend (toy_feed1 (y_set_pend t p) b) (a ++ y_pend (toy_feed1 (y_set_pend t p) b)).
Proof.
  intros [p0 h c d q] a p b. unfold toy_feed1. cbn.
  destruct c, d, h; cbn; try reflexivity; [now rewrite app_assoc|].
  destruct (Byte.eqb b x17); [reflexivity|]. now destruct (Byte.eqb b x15).
Qed.

Lemma set_pend_twice : forall t p q, y_set_pend (y_set_pend t p) q = y_set_pend t q.
Proof. now intros [? ? ? ? ?]. Qed.

Lemma set_pend_self : forall t, y_set_pend t (y_pend t) = t.
Proof. now intros [? ? ? ? ?]. Qed.

Lemma feed_pend : forall x t a p,
  toy_dec (y_set_pend t (a ++ p)) x = a ++ toy_dec (y_set_pend t p) x.
Proof.
  induction x as [|b x IH]; intros t a p; [reflexivity|].
  change (toy_dec (toy_feed1 (y_set_pend t (a ++ p)) b) x = a ++ toy_dec (toy_feed1 (y_set_pend t p) b) x).
  rewrite feed1_pend, IH. now rewrite set_pend_self.
Qed.

Lemma feed_app : forall x y t, toy_feed t (x ++ y) = toy_feed (toy_feed t x) y.
Proof. intros. apply fold_left_app. Qed.

Theorem toy_tls_receives : forall cap eof, tls_receives (toy_tls cap eof) toy_dec.
Proof.
  intros cap eof. split; cbn -[Nat.min Nat.sub firstn skipn].
  - intros t t' b x E. destruct (y_pend t) as [|c p] eqn:P.
    + destruct (y_closed t && eof); [|discriminate]. now injection E as <- <-.
    + injection E as <- <-. rewrite <- (set_pend_self t) at 1. rewrite P.
      rewrite <- (firstn_skipn 2 (c :: p)) at 1. apply feed_pend.
  - intros t t' x E. destruct (y_pend t) as [|c p] eqn:P; [|discriminate].
    destruct (y_closed t && eof) eqn:C; [discriminate|]. injection E as <-.
    unfold toy_dec at 3. cbn. rewrite P, C. auto.
  - intros t x t1 n t2 E E1.
    assert (En : n = Nat.min 3 (length x)) by congruence.
    assert (Et : t1 = toy_feed t (firstn 3 x)) by congruence. subst n t1. clear E. destruct (y_bad _); [discriminate|].
    injection E1 as <-. split; [lia|]. intro y.
    assert (Q : firstn (Nat.min 3 (length x)) x = firstn 3 x).
    { now destruct x as [|? [|? [|? ?]]]; cbn. }
    unfold toy_dec. rewrite Q. now rewrite feed_app.
  - intros t b t' n x E.
    assert (Et : exists q, t' = y_set_queue t q) by (exists (y_queue t ++ firstn n b); congruence). destruct Et as (q & ->). unfold toy_dec. now rewrite feed_queue.
  - intros t t' x E. now injection E as <-.
  - intros t t' b x E. destruct (y_queue t); [discriminate|]. injection E as <- _.
    unfold toy_dec. now rewrite feed_queue.
Qed.

Lemma peer_records : forall q t, y_closed t = false -> y_bad t = false -> y_half t = false ->
  toy_feed t (flat_map toy_record q) = y_set_pend t (y_pend t ++ q).
Proof.
  induction q as [|b q IH]; intros [p h c d r] Hc Hb Hh; cbn in *; subst.
  - unfold y_set_pend. cbn. now rewrite app_nil_r.
  - change (toy_feed (ToySession (p ++ [b]) false false false r) (flat_map toy_record q) =
      y_set_pend (ToySession p false false false r) (p ++ b :: q)).
    rewrite IH by reflexivity. unfold y_set_pend. cbn. now rewrite <- app_assoc.
Qed.

Lemma toy_read_queue : forall x t, y_queue (toy_feed t x) = y_queue t.
Proof.
  induction x as [|b x IH]; intro t; [reflexivity|].
  change (y_queue (toy_feed (toy_feed1 t b) x) = y_queue t). rewrite IH. unfold toy_feed1.
  destruct (_ || _); [reflexivity|]. destruct (y_half t); [reflexivity|].
  destruct (Byte.eqb b x17); [reflexivity|]. now destruct (Byte.eqb b x15).
Qed.

Theorem toy_tls_sends : forall cap eof, tls_sends (toy_tls cap eof) toy_peer toy_rel.
Proof.
  intros cap eof. split; cbn -[Nat.min Nat.sub firstn skipn].
  - intros t e p (q & -> & ->) H. destruct (y_queue t); [|discriminate]. rewrite app_nil_r.
    unfold toy_peer, toy_dec. now rewrite peer_records.
  - intros t e p b t' n (q & -> & ->) E.
    assert (En : n = Nat.min (length b) (cap - length (y_queue t))) by congruence.
    assert (Et : t' = y_set_queue t (y_queue t ++ firstn n b)) by congruence. subst t'. clear E. split; [lia|]. exists q. cbn.
    now rewrite app_assoc.
  - intros t e p t' b (q & -> & ->) E. destruct (y_queue t) as [|c r] eqn:Q; [discriminate|].
    injection E as <- <-. exists (q ++ firstn 2 (c :: r)). split.
    + rewrite flat_map_app. reflexivity.
    + rewrite <- app_assoc. cbn [y_queue y_set_queue]. f_equal. symmetry. apply (firstn_skipn 2 (c :: r)).
  - intros t e p t' H E. now injection E as <-.
  - intros t e p x t' n (q & -> & ->) E. injection E as <- _. exists q. split; [reflexivity|].
    now rewrite toy_read_queue.
  - intros t e p t' H E. destruct (y_bad t); [discriminate|]. now injection E as <-.
  - intros t e p t' r H E. destruct (y_pend t); [destruct (y_closed t && eof)|]; now injection E as <- _.
Qed.

Theorem toy_tls_finite : forall cap,
  tls_finite (toy_tls cap false) (fun t => length (y_pend t)) (fun t => length (y_queue t)).
Proof.
  intro cap. split; cbn -[Nat.min Nat.sub firstn skipn].
  - intros t t' b E. destruct (y_pend t) as [|c p] eqn:P.
    + now rewrite andb_false_r in E.
    + injection E as <- _. cbn. destruct p; cbn; lia.
  - intros t x t' n _ Hx E.
    assert (En : n = Nat.min 3 (length x)) by congruence. subst n. destruct x; [now contradiction Hx|]. cbn. lia.
  - intros t t' b E. destruct (y_queue t) as [|c p]; [discriminate|]. injection E as <- _. cbn.
    destruct p; cbn; lia.
Qed.
