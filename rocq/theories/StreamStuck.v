(** TLS sessions that are not [ready] when the stream takes over: no input is ever read. *)
From Coq Require Import List NArith Bool PeanoNat.
From Verif Require Import Base Stream SpecStream StreamProofs StreamThms StreamTls StreamTlsSend.
Import ListNotations.

Section Stuck.
Context (T : tls) (M : machine) (fuel : nat) (dec : t_st T -> bytes -> bytes)
  (Law : tls_receives T dec).

Definition deaf (t : t_st T) : Prop := t_wants_read T t = false.

Lemma write_all_deaf : forall F t b t' r, deaf t -> write_all T F t b = (t', r) -> deaf t'.
Proof.
  induction F as [|F IH]; intros t b t' r H E; destruct b as [|c b]; cbn in E;
    try (injection E as <- _; exact H).
  destruct (t_write T t (c :: b)) as [[t1 n]|] eqn:E1; [|now injection E as <- _].
  assert (H1 : deaf t1).
  { unfold deaf. destruct (tr_write T dec Law _ _ _ _ [] E1) as (_ & ->). exact H. }
  destruct n as [|n]; [now injection E as <- _|]. eapply IH; eauto.
Qed.

Lemma encrypt_loop_deaf : forall F t wb t' wb' r, deaf t -> encrypt_loop T F t wb = (t', wb', r) -> deaf t'.
Proof.
  induction F as [|F IH]; intros t wb t' wb' r H E; cbn in E; [now injection E as <- _ _|].
  destruct (t_wants_write T t); [|now injection E as <- _ _].
  destruct (t_write_tls T t) as [[t1 b]|] eqn:E1; [|now injection E as <- _ _].
  eapply IH; [|exact E]. unfold deaf. destruct (tr_write_tls T dec Law _ _ _ [] E1) as (_ & ->). exact H.
Qed.

Lemma sync_output_deaf : forall (s : stream T) b s' r t, x_tls s = Some t -> deaf t ->
  sync_output T fuel s b = (s', r) -> exists t', x_tls s' = Some t' /\ deaf t'.
Proof.
  intros s b s' r t Hs H E. unfold sync_output in E. rewrite Hs in E. unfold encrypt in E.
  destruct (write_all T fuel t b) as [t1 r1] eqn:W. apply write_all_deaf in W; [|exact H].
  destruct r1 as [u| | |]; try (injection E as <- _; now exists t1).
  destruct (encrypt_loop T fuel t1 (x_wbuf s)) as [[t2 wb] r2] eqn:L. apply encrypt_loop_deaf in L; [|exact W].
  destruct r2; injection E as <- _; now exists t2.
Qed.

Definition dinv (x : xstate T M) (l : list (xlog M)) : Prop :=
  (exists t, x_tls (x_s x) = Some t /\ deaf t) /\ xgiven l = [].

Lemma sync_deaf : forall (s : stream T) (m : m_st M) x' l' t, x_tls s = Some t -> deaf t ->
  sync T M fuel s m = (x', l') -> dinv x' l'.
Proof.
  intros s m x' l' t Hs H E. unfold sync, sync_input in E. rewrite Hs in E. unfold decrypt in E.
  assert (Fl : forall s2 m2 l2 r, (exists t, x_tls s2 = Some t /\ deaf t) -> xgiven l2 = [] ->
    fail T M s2 m2 l2 r = (x', l') -> dinv x' l').
  { intros s2 m2 l2 r F1 F2 F. apply fail_log in F as (e & -> & He & Hx & _). split; [now rewrite Hx|].
    rewrite xgiven_app, F2. destruct He as [->|[->| ->]]; reflexivity. }
  assert (D : exists r, decrypt_loop T fuel t (x_rbuf s) [] = (t, x_rbuf s, r) /\
    (r = LpOk [] \/ r = LpFuel)).
  { destruct fuel as [|F]; cbn [decrypt_loop]; [eauto|]. rewrite H. cbn. eauto. }
  destruct D as (r & D & [-> | ->]); rewrite D in E; cbn -[fail sync_output] in E.
  - destruct (m_next M m) as [[m2 r]|]; [|injection E as <- <-; split; [now exists t|reflexivity]].
    assert (IO : forall b, match sync_output T fuel (StreamSt (Some t) (x_rbuf s) (x_wbuf s)) b with
            | (s2, None) => (XState s2 m2 (next_await T s2), [XNext r])
            | (s2, Some e) => fail T M s2 m2 [XNext r] e
            end = (x', l') -> dinv x' l').
    { intros b F. destruct (sync_output T fuel _ b) as [s2 q] eqn:O.
      apply (sync_output_deaf _ _ _ _ t) in O; [|reflexivity|exact H].
      destruct q as [q|]; [now apply Fl in F|]. injection F as <- <-. now split. }
    destruct r as [e| |b|e]; try (now apply IO in E); injection E as <- <-;
      split; [now exists t|reflexivity|now exists t|reflexivity].
  - apply Fl in E; auto. now exists t.
Qed.

Lemma xstep_deaf : forall x l a x' l', dinv x l -> xstep T M fuel x a = (x', l') -> dinv x' (l ++ l').
Proof.
  intros x l a x' l' [(t & H1 & H2) H3] E.
  enough (G : dinv x' l') by (destruct G as [G1 G2]; split; [exact G1|now rewrite xgiven_app, H3]).
  apply xstep_log in E.
  assert (Q : forall k, x_s x' = x_s x -> xgiven k = [] -> dinv x' k).
  { intros k Q1 Q2. split; [rewrite Q1; now exists t|exact Q2]. }
  inversion E as [Hs E0|l0 Hfl Hl Hl' Hg Hrb E0|h l0 s1 Es Hh E0|e He0 Hs ? E0|n ? Hn Hs E0|rr ? Hs E0|e He0 Hs E0].
  - now apply Q.
  - split; [|exact Hg]. unfold start_flush in Hfl. rewrite H1 in Hfl.
    destruct (t_flush T t) as [t1|] eqn:E2.
    + assert (D1 : deaf t1). { unfold deaf. destruct (tr_flush T dec Law _ _ [] E2) as (_ & ->). exact H2. }
      destruct (sync_output T fuel _ []) as [s2 q] eqn:O.
      apply (sync_output_deaf _ _ _ _ t1) in O; [|reflexivity|exact D1].
      destruct q as [q|]; [now apply fail_log in Hfl as (? & _ & _ & -> & _)|now injection Hfl as <- _].
    + apply fail_log in Hfl as (? & _ & _ & -> & _). now exists t.
  - assert (Ht : x_tls s1 = Some t).
    { now destruct Hh as [(_ & ->)|[(b & _ & _ & _ & ->)|(_ & _ & _ & ->)]]. }
    apply (sync_deaf _ _ _ _ t) in Es as [S1 S2]; auto. split; [exact S1|].
    destruct Hh as [(-> & _)|[(b & _ & -> & _)|(_ & -> & _)]]; exact S2.
  - apply Q; auto; destruct He0 as [->| ->]; reflexivity.
  - split; [rewrite Hs; now exists t|reflexivity].
  - apply Q; auto; reflexivity.
  - apply Q; auto; destruct He0 as [->|[->|(? & ? & ->)]]; reflexivity.
Qed.

(** If the session does not ask for input at the beginning, no byte ever reaches the state. *)
Theorem deaf_forever : forall t0 m acts x l, t_wants_read T t0 = false ->
  xrun T M fuel (XState (stream_tls T t0) m FIdle) acts = (x, l) -> xgiven l = [].
Proof.
  intros t0 m acts x l H E. enough (G : dinv x l) by apply G. revert E.
  eapply (xrun_ind T M fuel dinv); [split; [now exists t0|reflexivity]|].
  intros. eapply xstep_deaf; eauto.
Qed.
End Stuck.

(** A session that accepts only a part of the output, and then nothing until its records
    are taken: the call fails, and the rest of the output is gone. *)
Theorem encrypt_overflow : forall T fuel t wb b t1 n t2,
  t_write T t b = Some (t1, n) -> 0 < n < length b ->
  t_write T t1 (skipn n b) = Some (t2, 0) ->
  encrypt T (S (S fuel)) t wb b = (t2, wb, LpIo).
Proof.
  intros T fuel t wb b t1 n t2 E1 [H1 H2] E2. unfold encrypt.
  assert (W : write_all T (S (S fuel)) t b = (t2, LpIo)); [|now rewrite W].
  destruct b as [|c b]; [inversion H2|]. cbn [write_all]. rewrite E1.
  destruct n as [|n]; [inversion H1|].
  destruct (skipn (S n) (c :: b)) as [|d b'] eqn:Sk.
  - assert (L : length (skipn (S n) (c :: b)) = 0) by now rewrite Sk.
    rewrite skipn_length in L. apply Nat.sub_0_le in L. now apply Nat.lt_nge in H2.
  - now rewrite E2.
Qed.
