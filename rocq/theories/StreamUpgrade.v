(** Buffers of a stream without TLS between two actions. *)
From Coq Require Import List NArith Bool PeanoNat.
From Verif Require Import Base Stream SpecStream StreamProofs StreamThms.
Import ListNotations.

Section Upgrade.
Context (T : tls) (M : machine) (fuel : nat).

Definition clean (x : xstate T M) : Prop :=
  x_tls (x_s x) = None /\ (x_f x <> FDead -> x_rbuf (x_s x) = []).

Lemma sync_clean : forall (s : stream T) (m : m_st M) x' l',
  x_tls s = None -> sync T M fuel s m = (x', l') -> clean x'.
Proof.
  intros s m x' l' H E. unfold sync in E.
  destruct (sync_input T M fuel s m) as [[[s1 m1] l1] r1] eqn:D.
  assert (I : x_tls s1 = None /\ r1 = None /\ (m1 <> None -> x_rbuf s1 = [])).
  { unfold sync_input in D. rewrite H in D.
    destruct (x_rbuf s) eqn:B; [|destruct (m_enqueue _ _ _)]; injection D as <- <- <- <-; cbn; auto.
    repeat split; auto. intro F. now contradiction F. }
  destruct I as (I1 & -> & I3). destruct m1 as [m1|].
  2:{ injection E as <- <-. split; [exact I1|]. intro F. now contradiction F. }
  assert (I4 : x_rbuf s1 = []) by now apply I3.
  destruct (m_next M m1) as [[m2 r]|]; [|injection E as <- <-; split; auto].
  unfold sync_output in E. rewrite I1 in E.
  destruct r; injection E as <- <-; split; cbn; auto.
Qed.

Lemma xstep_clean : forall x a x' l', clean x -> xstep T M fuel x a = (x', l') -> clean x'.
Proof.
  intros x a x' l' [H1 H2] E.
  assert (N : clean x) by now split.
  assert (Q : forall s1 h, x_tls s1 = None ->
    (let '(y, l) := sync T M fuel s1 (x_m x) in (y, h :: l)) = (x', l') -> clean x').
  { intros s1 h Hs F. destruct (sync T M fuel s1 (x_m x)) as [y k] eqn:D.
    apply pair_equal_spec in F as [<- _]. eapply sync_clean; eauto. }
  assert (D : forall f, x_f x <> FDead -> clean (x_set_f x f)).
  { intros f F. split; [exact H1|]. intros _. now apply H2. }
  destruct a as [| |r|r|ok| |o]; cbn [xstep] in E.
  - destruct (x_f x) in E; try (injection E as <- <-; exact N). eapply Q; [|exact E]; auto.
  - unfold start_flush in E. rewrite H1 in E.
    destruct (x_f x) eqn:F; injection E as <- <-; try exact N. split; [exact H1|]. intros _.
    apply H2. discriminate.
  - destruct (reading (x_f x)) eqn:R; [|injection E as <- <-; exact N].
    assert (F : x_f x <> FDead) by (intro F; now rewrite F in R).
    destruct r as [[|b r]|]; try (injection E as <- <-; now apply D). eapply Q; [|exact E]; auto.
  - destruct (writing (x_f x)) eqn:R; [|injection E as <- <-; exact N].
    assert (F : x_f x <> FDead) by (intro F; now rewrite F in R).
    destruct r as [[|n]|]; try (injection E as <- <-; now apply D).
    destruct (Nat.leb (S n) _); [|injection E as <- <-; exact N]. cbn [x_wbuf] in E.
    assert (W : forall f wb, clean (XState (StreamSt (x_tls (x_s x)) (x_rbuf (x_s x)) wb) (x_m x) f)).
    { intros f wb. split; [exact H1|]. intros _. now apply H2. }
    destruct (skipn (S n) (x_wbuf (x_s x))).
    + destruct (x_f x) in E; try (apply pair_equal_spec in E as [<- _]; apply W). eapply Q; [|exact E]; auto.
    + apply pair_equal_spec in E as [<- _]. apply W.
  - destruct (x_f x) eqn:F; injection E as <- <-; try exact N. apply D. discriminate.
  - destruct (pending (x_f x)) eqn:R; injection E as <- <-; [|exact N]. apply D. intro F. now rewrite F in R.
  - destruct (x_f x) eqn:F; try (injection E as <- <-; exact N).
    destruct (m_call M (x_m x) o) as [[m1 r]|]; injection E as <- <-.
    + split; [exact H1|]. intros _. apply H2. discriminate.
    + apply D. discriminate.
Qed.

(** src/stream.rs:173-181 [From<Stream> for TcpStream] drops the buffers of the stream: no
    byte that was read is among them. *)
Theorem plain_read_buffer : forall m acts x l,
  xrun T M fuel (XState (stream_insecure T) m FIdle) acts = (x, l) ->
  x_f x <> FDead -> x_rbuf (x_s x) = [] /\ xread l = xgiven l.
Proof.
  intros m acts x l E F.
  assert (C : clean x).
  { revert E. eapply (xrun_ind T M fuel (fun x _ => clean x)); [now split|].
    intros x1 l1 a x2 l2 H E. eapply xstep_clean; eauto. }
  destruct C as [_ C]. specialize (C F). split; [exact C|].
  apply plain_conserved in E as [_ E]. now rewrite C, app_nil_r in E.
Qed.

(** Right after a flush nothing is lost in the other direction. *)
Theorem plain_write_buffer : forall m acts ok x l l1,
  xrun T M fuel (XState (stream_insecure T) m FIdle) (acts ++ [AFlushed ok]) = (x, l) ->
  l = l1 ++ [XRet RetFlushed] -> x_wbuf (x_s x) = [].
Proof.
  intros m acts ok x l l1 E Hl.
  pose proof (plain_flushed _ _ _ _ _ _ _ E l1 [] Hl) as H.
  apply plain_conserved in E as [E _]. rewrite Hl, xwritten_app, xoutputs_app in E. cbn in E.
  rewrite !app_nil_r, H in E. rewrite <- (app_nil_r (xoutputs l1)) in E at 2. now apply app_inv_head in E.
Qed.
End Upgrade.
