(** Proofs about the stream with TLS: output, and termination of the loops. *)
From Coq Require Import List NArith Bool PeanoNat Lia.
From Verif Require Import Base Stream SpecStream StreamProofs StreamThms StreamTls.
Import ListNotations.

Section Send.
Context (T : tls) (M : machine) (fuel : nat) (peer : bytes -> bytes)
  (R : t_st T -> bytes -> bytes -> Prop) (Law : tls_sends T peer R).
Notation xst := (xstate T M).

Lemma write_all_R : forall F t b t' e p u, R t e p -> write_all T F t b = (t', LpOk u) ->
  R t' e (p ++ b).
Proof.
  induction F as [|F IH]; intros t b t' e p u H E; destruct b as [|c b]; cbn in E;
    try discriminate; try (injection E as <- _; now rewrite app_nil_r).
  destruct (t_write T t (c :: b)) as [[t1 [|n]]|] eqn:E1; try discriminate.
  destruct (ts_write T peer R Law _ _ _ _ _ _ H E1) as (_ & H1).
  apply (IH _ _ _ _ _ _ H1) in E. rewrite <- app_assoc, (firstn_skipn (S n) (c :: b)) in E. exact E.
Qed.

Lemma encrypt_loop_R : forall F t wb t' wb' e p u, R t (e ++ wb) p ->
  encrypt_loop T F t wb = (t', wb', LpOk u) ->
  R t' (e ++ wb') p /\ t_wants_write T t' = false.
Proof.
  induction F as [|F IH]; intros t wb t' wb' e p u H E; cbn in E; [discriminate|].
  destruct (t_wants_write T t) eqn:W.
  - destruct (t_write_tls T t) as [[t1 b]|] eqn:E1; [|discriminate].
    apply (ts_write_tls T peer R Law _ _ _ _ _ H) in E1. rewrite <- app_assoc in E1.
    eapply IH; eauto.
  - injection E as <- <- _. auto.
Qed.

Lemma encrypt_R : forall F t wb b t' wb' e p u, R t (e ++ wb) p ->
  encrypt T F t wb b = (t', wb', LpOk u) ->
  R t' (e ++ wb') (p ++ b) /\ peer (e ++ wb') = p ++ b.
Proof.
  intros F t wb b t' wb' e p u H E. unfold encrypt in E.
  destruct (write_all T F t b) as [t1 r1] eqn:E1. destruct r1 as [v| | |]; try discriminate.
  apply (write_all_R _ _ _ _ _ _ _ H) in E1. apply (encrypt_loop_R _ _ _ _ _ _ _ _ E1) in E as (E2 & E3).
  split; [exact E2|]. eapply ts_done; eauto.
Qed.

Lemma decrypt_read_R : forall F t pl t' r e p, R t e p -> decrypt_read T F t pl = (t', r) -> R t' e p.
Proof.
  induction F as [|F IH]; intros t pl t' r e p H E; cbn in E; [now injection E as <- _|].
  destruct (t_read T t) as [t1 [b| |]] eqn:E1; pose proof (ts_read T peer R Law _ _ _ _ _ H E1) as H1.
  - eapply IH; eauto.
  - now injection E as <- _.
  - now injection E as <- _.
Qed.

Lemma decrypt_loop_R : forall F t rb pl t' rb' r e p, R t e p ->
  decrypt_loop T F t rb pl = (t', rb', r) -> R t' e p.
Proof.
  induction F as [|F IH]; intros t rb pl t' rb' r e p H E; cbn [decrypt_loop] in E.
  - now injection E as <- _ _.
  - destruct (t_wants_read T t && _); [|now injection E as <- _ _].
    destruct (t_read_tls T t rb) as [[t1 n]|] eqn:E1; [|now injection E as <- _ _].
    apply (ts_read_tls T peer R Law _ _ _ _ _ _ H) in E1.
    destruct (t_process T t1) as [t2|] eqn:E2; [|now injection E as <- _ _].
    apply (ts_process T peer R Law _ _ _ _ E1) in E2.
    destruct (decrypt_read T (S F) t2 pl) as [t3 q] eqn:E3. apply (decrypt_read_R _ _ _ _ _ _ _ E2) in E3.
    destruct q; try (now injection E as <- _ _). eapply IH; eauto.
Qed.

Definition sent (s : stream T) (l : list (xlog M)) : Prop :=
  exists t, x_tls s = Some t /\ R t (xwritten l ++ x_wbuf s) (xoutputs l) /\
    peer (xwritten l ++ x_wbuf s) = xoutputs l.

Lemma sync_input_R : forall (s : stream T) (m : m_st M) s1 m1 l1 r1 l,
  sent s l -> sync_input T M fuel s m = (s1, m1, l1, r1) -> sent s1 (l ++ l1).
Proof.
  intros s m s1 m1 l1 r1 l (t & H1 & H2 & H3) E.
  assert (E' := E). apply sync_input_log in E' as (Ew & E').
  assert (Q : xwritten l1 = [] /\ xoutputs l1 = []).
  { destruct E' as [(_ & ->)|[(b & m' & _ & _ & -> & _)|(_ & ->)]]; auto. }
  destruct Q as (Q1 & Q2). unfold sent. rewrite xwritten_app, xoutputs_app, Q1, Q2, !app_nil_r, Ew.
  assert (Ht : exists t', x_tls s1 = Some t' /\ R t' (xwritten l ++ x_wbuf s) (xoutputs l)).
  { unfold sync_input in E. rewrite H1 in E.
    destruct (decrypt T fuel t (x_rbuf s)) as [[t1 rb] r] eqn:D.
    apply (decrypt_loop_R _ _ _ _ _ _ _ _ _ H2) in D.
    destruct r as [[|y b]| | |]; try (destruct (m_enqueue M m (y :: b)));
      injection E as <- _ _ _; exists t1; auto. }
  destruct Ht as (t' & Ht & HR). exists t'. auto.
Qed.

Lemma sync_output_R : forall (s : stream T) b s2 l l1,
  sent s l -> sync_output T fuel s b = (s2, None) ->
  xwritten l1 = [] -> xoutputs l1 = b -> sent s2 (l ++ l1).
Proof.
  intros s b s2 l l1 (t & H1 & H2 & H3) E Q1 Q2. unfold sync_output in E. rewrite H1 in E.
  destruct (encrypt T fuel t (x_wbuf s) b) as [[t1 wb] r] eqn:D. destruct r as [u| | |]; try discriminate.
  injection E as <-. apply (encrypt_R _ _ _ _ _ _ _ _ _ H2) in D as (D1 & D2).
  exists t1. rewrite xwritten_app, xoutputs_app, Q1, Q2, app_nil_r. cbn. auto.
Qed.

Lemma sync_R : forall (s : stream T) (m : m_st M) x' l' l,
  sent s l -> sync T M fuel s m = (x', l') ->
  no_error l' -> x_f x' <> FDead -> sent (x_s x') (l ++ l').
Proof.
  intros s m x' l' l H E He Hd. unfold sync in E.
  destruct (sync_input T M fuel s m) as [[[s1 m1] l1] r1] eqn:D.
  pose proof (sync_input_R _ _ _ _ _ _ _ H D) as H1.
  assert (Fl : forall s2 m2 l2 r, fail T M s2 m2 l2 r = (x', l') -> False).
  { intros s2 m2 l2 r F. unfold fail in F. destruct r; apply pair_equal_spec in F as [<- <-].
    - now contradiction Hd.
    - destruct He as (He & _). rewrite xrets_app in He. apply He, in_or_app. right. now left.
    - destruct He as (_ & He). rewrite xrets_app in He. apply He, in_or_app. right. now left.
    - now contradiction Hd. }
  destruct m1 as [m1|]; [|injection E as <- <-; now contradiction Hd].
  destruct r1 as [r1|]; [now apply Fl in E|].
  destruct (m_next M m1) as [[m2 r]|]; [|injection E as <- <-; now contradiction Hd].
  assert (O : forall l2, xwritten l2 = [] -> xoutputs l2 = [] -> sent s1 (l ++ l1 ++ l2)).
  { intros l2 O1 O2. rewrite app_assoc. destruct H1 as (t & H1 & H2 & H3). exists t.
    rewrite xwritten_app, xoutputs_app, O1, O2, !app_nil_r. auto. }
  destruct r as [e| |b|e].
  - injection E as <- <-. rewrite <- app_assoc. now apply O.
  - destruct (sync_output T fuel s1 []) as [s2 [e|]] eqn:E1; [now apply Fl in E|].
    injection E as <- <-. rewrite app_assoc. eapply sync_output_R; eauto.
  - destruct (sync_output T fuel s1 b) as [s2 [e|]] eqn:E1; [now apply Fl in E|].
    injection E as <- <-. rewrite app_assoc. eapply sync_output_R; eauto. cbn. apply app_nil_r.
  - injection E as <- <-. rewrite <- app_assoc. now apply O.
Qed.

Definition sinv (x : xst) (l : list (xlog M)) : Prop :=
  (no_error l -> x_f x <> FDead -> sent (x_s x) l) /\ awaits T M x.

Lemma xstep_sinv : forall x l a x' l',
  sinv x l -> xstep T M fuel x a = (x', l') -> sinv x' (l ++ l').
Proof.
  intros x l a x' l' (H & Ha) E. split; [|eapply xstep_awaits; eauto]. clear Ha.
  intros He Hd. apply no_error_app in He as (He & He').
  assert (Hx : x_f x <> FDead).
  { intro F. rewrite (xstep_dead _ _ _ x a F) in E. now injection E as <- <-. }
  specialize (H He Hx).
  assert (Q : forall l1, x_s x' = x_s x -> xwritten l1 = [] -> xoutputs l1 = [] -> sent (x_s x') (l ++ l1)).
  { intros l1 Q1 Q2 Q3. rewrite Q1. destruct H as (t & H1 & H2 & H3). exists t.
    rewrite xwritten_app, xoutputs_app, Q2, Q3, !app_nil_r. auto. }
  apply xstep_log in E.
  inversion E as [Hs E0|l0 Hfl Hl Hl' Hg Hrb E0|h l0 s1 Es Hh E0|e He0 Hs ? E0|n ? Hn Hs E0|rr ? Hs E0|e He0 Hs E0].
  - now apply Q.
  - subst l'. unfold start_flush in Hfl. destruct H as (t & H1 & H2 & H3). rewrite H1 in Hfl.
    assert (Fl : forall s2 m2 r, fail T M s2 m2 [] r = (x', l0) -> False).
    { intros s2 m2 r F. unfold fail in F. destruct r; apply pair_equal_spec in F as [<- <-].
      - now contradiction Hd.
      - destruct He' as (He' & _). apply He'. now left.
      - destruct He' as (_ & He'). apply He'. now left.
      - now contradiction Hd. }
    destruct (t_flush T t) as [t1|] eqn:E2; [|now apply Fl in Hfl].
    destruct (sync_output T fuel _ []) as [s2 [e|]] eqn:O; [now apply Fl in Hfl|].
    injection Hfl as <- <-. eapply sync_output_R; [|exact O|reflexivity|reflexivity].
    exists t1. cbn. split; [reflexivity|]. split; [|exact H3]. eapply ts_flush; eauto.
  - subst l'. change (h :: l0) with ([h] ++ l0). rewrite app_assoc.
    assert (Hr : no_error l0).
    { destruct He' as (F1 & F2). destruct Hh as [(-> & _)|[(? & _ & -> & _)|(_ & -> & _)]]; split; auto. }
    eapply sync_R; eauto.
    destruct H as (t & H1 & H2 & H3). exists t. rewrite xwritten_app, xoutputs_app.
    destruct Hh as [(-> & ->)|[(b & _ & -> & _ & ->)|(_ & -> & _ & ->)]]; cbn; rewrite ?app_nil_r; auto.
  - apply Q; auto; destruct He0 as [->| ->]; reflexivity.
  - destruct H as (t & H1 & H2 & H3). exists t. rewrite xwritten_app, xoutputs_app, Hs.
    cbn [xwritten xoutputs x_tls x_wbuf]. rewrite !app_nil_r, <- app_assoc, firstn_skipn. auto.
  - apply Q; auto; reflexivity.
  - apply Q; auto; destruct He0 as [->|[->|(? & ? & ->)]]; reflexivity.
Qed.

Lemma sinv_run : forall t0 m acts x l, R t0 [] [] -> peer [] = [] ->
  xrun T M fuel (XState (stream_tls T t0) m FIdle) acts = (x, l) -> sinv x l.
Proof.
  intros t0 m acts x l H0 H1. eapply (xrun_ind T M fuel sinv).
  - split; [|exact I]. intros _ _. exists t0. cbn. auto.
  - intros. eapply xstep_sinv; eauto.
Qed.

(** The peer gets exactly the output of the state, once the buffered bytes are written. *)
Theorem tls_sent : forall t0 m acts x l, R t0 [] [] -> peer [] = [] ->
  xrun T M fuel (XState (stream_tls T t0) m FIdle) acts = (x, l) ->
  no_error l -> x_f x <> FDead -> peer (xwritten l ++ x_wbuf (x_s x)) = xoutputs l.
Proof.
  intros t0 m acts x l H0 H1 E He Hd. apply sinv_run in E as (E & _); auto.
  now destruct (E He Hd) as (t & _ & _ & H).
Qed.

(** After a flush the peer has it. *)
Theorem tls_flushed : forall t0 m acts x l, R t0 [] [] -> peer [] = [] ->
  xrun T M fuel (XState (stream_tls T t0) m FIdle) acts = (x, l) ->
  forall l1 l2, l = l1 ++ XRet RetFlushed :: l2 -> no_error l1 -> peer (xwritten l1) = xoutputs l1.
Proof.
  intros t0 m acts x l H0 H1 E l1 l2 Hl He.
  destruct (xrun_prefix _ _ _ _ _ _ _ E _ _ _ Hl) as (a1 & a & a2 & xa & xb & k1 & k2 & la & -> & Ea & Eb & ->).
  assert (Hx : x_f xa <> FDead).
  { intro F. rewrite (xstep_dead _ _ _ xa a F) in Eb. injection Eb as _ Eb. now destruct k1. }
  apply no_error_app in He as (He & _).
  apply sinv_run in Ea as (S & W); auto. apply xstep_log in Eb.
  assert (Z : forall k k2, ~ Forall (iter_entry M) (k ++ XRet RetFlushed :: k2)).
  { intros k q F. apply Forall_app in F as [_ F]. inversion F as [|? ? F1]. destruct F1 as [_ F1]. now apply F1. }
  inversion Eb as [ Hs E0|l0 ? Hl0 ? ? ? E0|h l0 s1 Es Hh E0|e0 He0 ? ? E0|n Hn Hn' ? E0|rr Hr ? E0|e0 He0 ? E0].
  - now destruct k1.
  - exfalso. destruct k1 as [|e1 k1]; cbn in E0; injection E0 as E3 E4; [discriminate|]. subst l0. now apply Z in Hl0.
  - exfalso. destruct k1 as [|e1 k1]; cbn in E0; injection E0 as E3 E4.
    + subst h. destruct Hh as [(F & _)|[(b & Hb & F & _)|(Hw & F & _)]]; discriminate.
    + apply sync_entries in Es. subst l0. now apply Z in Es.
  - exfalso. destruct k1 as [|e1 [|e2 k1]]; cbn in E0; injection E0; intros; subst; try discriminate.
    + destruct He0; discriminate.
    + now destruct k1.
  - exfalso. destruct k1 as [|e1 k1]; cbn in E0; injection E0; intros; [discriminate|now destruct k1].
  - destruct k1 as [|e1 k1]; cbn in E0; injection E0; intros; [subst|now destruct k1].
    destruct Hr as [F|(_ & F)]; [discriminate|]. unfold awaits in W. rewrite F in W.
    destruct (S He Hx) as (t & _ & _ & S3). rewrite W, app_nil_r in S3. now rewrite app_nil_r.
  - exfalso. destruct k1 as [|e1 k1]; cbn in E0; injection E0; intros; [subst|now destruct k1].
    destruct He0 as [F|[F|(? & ? & F)]]; discriminate.
Qed.
End Send.

(** ** Termination *)

Section Finite.
Context (T : tls) (M : machine) (mu nu : t_st T -> nat) (Law : tls_finite T mu nu).

Lemma decrypt_read_stable : forall n t p, mu t < n ->
  exists r, (forall F, n <= F -> decrypt_read T F t p = r) /\ snd r <> LpFuel.
Proof.
  induction n as [|n IH]; intros t p H; [lia|].
  destruct (t_read T t) as [t1 [b| |]] eqn:E.
  - pose proof (tf_read T mu nu Law _ _ _ E) as E1.
    destruct (IH t1 (p ++ b)) as (r & H1 & H2); [lia|]. exists r. split; [|exact H2].
    intros F HF. destruct F as [|F]; [lia|]. cbn. rewrite E. apply H1. lia.
  - exists (t1, LpOk p). split; [|discriminate]. intros F HF. destruct F; [lia|]. cbn. now rewrite E.
  - exists (t1, LpIo). split; [|discriminate]. intros F HF. destruct F; [lia|]. cbn. now rewrite E.
Qed.

Lemma decrypt_loop_stable : forall n t rb p, length rb <= n ->
  exists F0 r, (forall F, F0 <= F -> decrypt_loop T F t rb p = r) /\ snd r <> LpFuel.
Proof.
  induction n as [|n IH]; intros t rb p H.
  - destruct rb; [|cbn in H; lia]. exists 1, (t, [], LpOk p). split; [|discriminate].
    intros F HF. destruct F; [lia|]. cbn. now rewrite andb_false_r.
  - destruct (t_wants_read T t) eqn:W.
    2:{ exists 1, (t, rb, LpOk p). split; [|discriminate]. intros F HF. destruct F; [lia|]. cbn. now rewrite W. }
    destruct rb as [|c rb].
    { exists 1, (t, [], LpOk p). split; [|discriminate]. intros F HF. destruct F; [lia|]. cbn. now rewrite andb_false_r. }
    destruct (t_read_tls T t (c :: rb)) as [[t1 k]|] eqn:E1.
    2:{ exists 1, (t, c :: rb, LpIo). split; [|discriminate]. intros F HF. destruct F; [lia|].
        cbn [decrypt_loop]. now rewrite W, E1. }
    destruct (t_process T t1) as [t2|] eqn:E2.
    2:{ exists 1, (t1, skipn k (c :: rb), LpTls). split; [|discriminate]. intros F HF. destruct F; [lia|].
        cbn [decrypt_loop]. rewrite W, E1. cbn [negb andb]. now rewrite E2. }
    destruct (decrypt_read_stable (S (mu t2)) t2 p) as ([t3 q] & D1 & D2); [lia|].
    assert (Hk : 0 < k) by (eapply tf_net; eauto; discriminate).
    destruct q as [q| | |].
    + destruct (IH t3 (skipn k (c :: rb)) q) as (F0 & r & H1 & H2).
      { rewrite skipn_length. cbn [length] in *. lia. }
      exists (S (max F0 (S (mu t2)))), r. split; [|exact H2]. intros F HF. destruct F as [|F]; [lia|].
      cbn [decrypt_loop]. rewrite W, E1. cbn [negb andb]. rewrite E2, D1 by lia. apply H1. lia.
    + exists (S (S (mu t2))), (t3, skipn k (c :: rb), LpIo). split; [|discriminate]. intros F HF. destruct F as [|F]; [lia|].
      cbn [decrypt_loop]. rewrite W, E1. cbn [negb andb]. now rewrite E2, D1 by lia.
    + exists (S (S (mu t2))), (t3, skipn k (c :: rb), LpTls). split; [|discriminate]. intros F HF. destruct F as [|F]; [lia|].
      cbn [decrypt_loop]. rewrite W, E1. cbn [negb andb]. now rewrite E2, D1 by lia.
    + now contradiction D2.
Qed.

(** [decrypt] returns. *)
Theorem decrypt_returns : forall t rb,
  exists F0 r, (forall F, F0 <= F -> decrypt T F t rb = r) /\ snd r <> LpFuel.
Proof. intros t rb. eapply decrypt_loop_stable. reflexivity. Qed.

Lemma write_all_stable : forall n t b, length b <= n ->
  exists r, (forall F, n <= F -> write_all T F t b = r) /\ snd r <> LpFuel.
Proof.
  induction n as [|n IH]; intros t b H; (destruct b as [|c b]; [exists (t, LpOk tt); split;
    [intros F _; now destruct F|discriminate]|]).
  - cbn in H. lia.
  - destruct (t_write T t (c :: b)) as [[t1 [|k]]|] eqn:E.
    + exists (t1, LpIo). split; [|discriminate]. intros F HF. destruct F; [lia|]. cbn. now rewrite E.
    + destruct (IH t1 (skipn (S k) (c :: b))) as (r & H1 & H2).
      { rewrite skipn_length. cbn [length] in *. lia. }
      exists r. split; [|exact H2]. intros F HF. destruct F; [lia|]. cbn [write_all]. rewrite E. apply H1. lia.
    + exists (t, LpIo). split; [|discriminate]. intros F HF. destruct F; [lia|]. cbn. now rewrite E.
Qed.

Lemma encrypt_loop_stable : forall n t wb, nu t < n ->
  exists r, (forall F, n <= F -> encrypt_loop T F t wb = r) /\ snd r <> LpFuel.
Proof.
  induction n as [|n IH]; intros t wb H; [lia|].
  destruct (t_wants_write T t) eqn:W.
  2:{ exists (t, wb, LpOk tt). split; [|discriminate]. intros F HF. destruct F; [lia|]. cbn. now rewrite W. }
  destruct (t_write_tls T t) as [[t1 b]|] eqn:E.
  - pose proof (tf_emit T mu nu Law _ _ _ E) as E1.
    destruct (IH t1 (wb ++ b)) as (r & H1 & H2); [lia|]. exists r. split; [|exact H2].
    intros F HF. destruct F as [|F]; [lia|]. cbn. rewrite W, E. apply H1. lia.
  - exists (t, wb, LpIo). split; [|discriminate]. intros F HF. destruct F; [lia|]. cbn. now rewrite W, E.
Qed.

Theorem encrypt_returns : forall t wb b,
  exists F0 r, (forall F, F0 <= F -> encrypt T F t wb b = r) /\ snd r <> LpFuel.
Proof.
  intros t wb b. destruct (write_all_stable (length b) t b (le_n _)) as ([t1 q] & W1 & W2).
  destruct q as [u| | |].
  - destruct (encrypt_loop_stable (S (nu t1)) t1 wb) as (r & H1 & H2); [lia|].
    exists (max (length b) (S (nu t1))), r. split; [|exact H2]. intros F HF. unfold encrypt.
    rewrite W1 by lia. apply H1. lia.
  - exists (length b), (t1, wb, LpIo). split; [|discriminate]. intros F HF. unfold encrypt. now rewrite W1 by lia.
  - exists (length b), (t1, wb, LpTls). split; [|discriminate]. intros F HF. unfold encrypt. now rewrite W1 by lia.
  - now contradiction W2.
Qed.

(** Whole runs do not depend on the bound if it is large enough, and nothing hangs. *)
Lemma sync_stable : forall (s : stream T) (m : m_st M),
  exists F0 r, (forall F, F0 <= F -> sync T M F s m = r) /\ ~ In XHang (snd r).
Proof.
  intros s m.
  assert (I : exists F0 a, (forall F, F0 <= F -> sync_input T M F s m = a) /\
    let '(_, _, l1, r1) := a in ~ In XHang l1 /\ r1 <> Some LpFuel /\ (forall u, r1 <> Some (LpOk u))).
  { destruct (x_tls s) as [t|] eqn:Et.
    - destruct (decrypt_returns t (x_rbuf s)) as (F0 & [[t1 rb] q] & D1 & D2).
      exists F0. eexists. split.
      + intros F HF. unfold sync_input. rewrite Et, D1 by lia. reflexivity.
      + destruct q as [[|y b]| | |]; cbn; try (repeat split; intros; try discriminate; auto; fail).
        destruct (m_enqueue M m (y :: b)); repeat split; intros; try discriminate; intros [F|[]]; discriminate F.
    - exists 0. eexists. split; [intros F _; unfold sync_input; rewrite Et; reflexivity|].
      destruct (x_rbuf s) as [|y b]; cbn; [repeat split; intros; try discriminate; auto|].
      destruct (m_enqueue M m (y :: b)); repeat split; intros; try discriminate; intros [F|[]]; discriminate F. }
  destruct I as (F1 & [[[s1 m1] l1] r1] & I1 & I2 & I3 & I4).
  assert (O : forall b, exists F0 a, (forall F, F0 <= F -> sync_output T F s1 b = a) /\
     snd a <> Some LpFuel /\ forall u, snd a <> Some (LpOk u)).
  { intro b. destruct (x_tls s1) as [t|] eqn:Et.
    - destruct (encrypt_returns t (x_wbuf s1) b) as (F0 & [[t1 wb] q] & D1 & D2).
      exists F0. eexists. split.
      + intros F HF. unfold sync_output. rewrite Et, D1 by lia. reflexivity.
      + destruct q; cbn; repeat split; intros; try discriminate. now contradiction D2.
    - exists 0. eexists. split; [intros F _; unfold sync_output; rewrite Et; reflexivity|].
      cbn. split; intros; discriminate. }
  assert (Fl : forall s2 m2 l2 r, ~ In XHang l2 -> r <> LpFuel -> (forall u, r <> LpOk u) ->
    ~ In XHang (snd (fail T M s2 m2 l2 r))).
  { intros s2 m2 l2 r H1 H2 H3 F. destruct r as [u| | |].
    - now apply (H3 u).
    - cbn in F. apply in_app_or in F as [F|[F|[]]]; [now apply H1|discriminate].
    - cbn in F. apply in_app_or in F as [F|[F|[]]]; [now apply H1|discriminate].
    - now apply H2. }
  destruct m1 as [m1|].
  2:{ exists F1. eexists. split; [intros F HF; unfold sync; rewrite I1 by lia; reflexivity|]. exact I2. }
  destruct r1 as [r1|].
  { exists F1. eexists. split; [intros F HF; unfold sync; rewrite I1 by lia; reflexivity|].
    apply Fl; auto; intros; congruence. }
  destruct (m_next M m1) as [[m2 r]|] eqn:N.
  2:{ exists F1. eexists. split; [intros F HF; unfold sync; rewrite I1, N by lia; reflexivity|].
      cbn. intro F. apply in_app_or in F as [F|[F|[]]]; [now apply I2|discriminate]. }
  assert (NH : ~ In XHang (l1 ++ [XNext r])).
  { intro F. apply in_app_or in F as [F|[F|[]]]; [now apply I2|discriminate]. }
  assert (G : forall b, exists F0 a, (forall F, F0 <= F ->
    match sync_output T F s1 b with
    | (s2, None) => (XState s2 m2 (next_await T s2), l1 ++ [XNext r])
    | (s2, Some e) => fail T M s2 m2 (l1 ++ [XNext r]) e
    end = a) /\ ~ In XHang (snd a)).
  { intro b. destruct (O b) as (F2 & [s2 q] & O1 & O2 & O3). exists F2. eexists. split.
    - intros F HF. rewrite O1 by lia. reflexivity.
    - cbn in O2, O3. destruct q as [e|]; [|exact NH]. apply Fl; auto; intros; congruence. }
  destruct r as [e| |b|e].
  - exists F1. eexists. split; [intros F HF; unfold sync; rewrite I1, N by lia; reflexivity|].
    cbn. intro F. apply in_app_or in F as [F|[F|[]]]; [now apply NH|discriminate].
  - destruct (G []) as (F2 & a & G1 & G2). exists (max F1 F2), a. split; [|exact G2].
    intros F HF. unfold sync. rewrite I1, N by lia. apply G1. lia.
  - destruct (G b) as (F2 & a & G1 & G2). exists (max F1 F2), a. split; [|exact G2].
    intros F HF. unfold sync. rewrite I1, N by lia. apply G1. lia.
  - exists F1. eexists. split; [intros F HF; unfold sync; rewrite I1, N by lia; reflexivity|].
    cbn. intro F. apply in_app_or in F as [F|[F|[]]]; [now apply NH|discriminate].
Qed.

Lemma start_flush_stable : forall (s : stream T) (m : m_st M),
  exists F0 r, (forall F, F0 <= F -> start_flush T M F s m = r) /\ ~ In XHang (snd r).
Proof.
  intros s m. unfold start_flush. destruct (x_tls s) as [t|] eqn:Et.
  2:{ exists 0. eexists. split; [reflexivity|]. now cbn. }
  destruct (t_flush T t) as [t1|].
  2:{ exists 0. eexists. split; [reflexivity|]. cbn. intros [F|[]]; discriminate. }
  destruct (encrypt_returns t1 (x_wbuf s) []) as (F0 & [[t2 wb] q] & D1 & D2).
  exists F0. eexists. split.
  - intros F HF. unfold sync_output. cbn [x_tls x_wbuf x_rbuf]. rewrite D1 by lia. reflexivity.
  - destruct q; cbn; try (intros [F|[]]; discriminate); auto.
Qed.

Lemma xstep_stable : forall (x : xstate T M) a,
  exists F0 r, (forall F, F0 <= F -> xstep T M F x a = r) /\ ~ In XHang (snd r).
Proof.
  intros x a.
  assert (Z : exists F0 r, (forall F, F0 <= F -> (x, []) = r) /\ ~ In (@XHang M) (snd r)).
  { exists 0. eexists. split; [reflexivity|]. now cbn. }
  assert (Q : forall h s1, h <> XHang -> exists F0 r, (forall F, F0 <= F ->
    (let '(x', l) := sync T M F s1 (x_m x) in (x', h :: l)) = r) /\ ~ In XHang (snd r)).
  { intros h s1 Hh. destruct (sync_stable s1 (x_m x)) as (F0 & [x' l] & S1 & S2). exists F0, (x', h :: l).
    split; [intros F HF; now rewrite S1 by lia|]. cbn. intros [F|F]; [now apply Hh|now apply S2]. }
  destruct a as [| |r|r|ok| |o]; cbn [xstep].
  - destruct (x_f x); auto. apply Q. discriminate.
  - destruct (x_f x); auto. destruct (start_flush_stable (x_s x) (x_m x)) as (F0 & [x' l] & S1 & S2).
    exists F0, (x', XStartFlush :: l). split; [intros F HF; now rewrite S1 by lia|].
    cbn. intros [F|F]; [discriminate|now apply S2].
  - destruct (reading (x_f x)); auto. destruct r as [[|b r]|].
    + exists 0. eexists. split; [reflexivity|]. cbn. intuition discriminate.
    + apply Q. discriminate.
    + exists 0. eexists. split; [reflexivity|]. cbn. intuition discriminate.
  - destruct (writing (x_f x)); auto.
    destruct r as [[|n]|]; try (exists 0; eexists; split; [reflexivity|cbn; intuition discriminate]).
    destruct (Nat.leb (S n) (length (x_wbuf (x_s x)))); auto. cbn [x_wbuf].
    destruct (skipn (S n) (x_wbuf (x_s x))).
    + destruct (x_f x); try (exists 0; eexists; split; [reflexivity|cbn; intuition discriminate]).
      apply Q. discriminate.
    + exists 0. eexists. split; [reflexivity|]. cbn. intuition discriminate.
  - destruct (x_f x); auto. exists 0. eexists. split; [reflexivity|]. cbn. intuition discriminate.
  - destruct (pending (x_f x)); auto. exists 0. eexists. split; [reflexivity|]. cbn. intuition discriminate.
  - destruct (x_f x); auto. destruct (m_call M (x_m x) o) as [[m1 r]|];
      exists 0; eexists; (split; [reflexivity|]); cbn; intuition discriminate.
Qed.

Theorem run_returns : forall acts (x : xstate T M),
  exists F0 r, (forall F, F0 <= F -> xrun T M F x acts = r) /\ ~ In XHang (snd r).
Proof.
  induction acts as [|a acts IH]; intro x.
  - exists 0, (x, []). split; [reflexivity|]. now cbn.
  - destruct (xstep_stable x a) as (F1 & [x1 l1] & S1 & S2).
    destruct (IH x1) as (F2 & [x2 l2] & R1 & R2). exists (max F1 F2), (x2, l1 ++ l2). split.
    + intros F HF. cbn [xrun]. rewrite S1, R1 by lia. reflexivity.
    + cbn in *. intro F. apply in_app_or in F as [F|F]; auto.
Qed.
End Finite.

(** If reading yields no bytes again and again (rustls after the peer has closed the
    session), [decrypt] never returns. *)
Theorem decrypt_read_hangs : forall T t, t_read T t = (t, TrData []) ->
  forall F p, snd (decrypt_read T F t p) = LpFuel.
Proof.
  intros T t H. induction F as [|F IH]; intro p; cbn; [reflexivity|]. rewrite H, app_nil_r. apply IH.
Qed.

(** A session with unread plaintext does not ask for input (rustls); then nothing is ever
    read from it, whatever arrives. *)
Theorem decrypt_stuck : forall T t rb, t_wants_read T t = false ->
  forall F, decrypt T (S F) t rb = (t, rb, LpOk []).
Proof. intros T t rb H F. unfold decrypt. cbn. now rewrite H. Qed.

(** ** Records do not stay behind *)

Section Emitted.
Context (T : tls) (M : machine) (fuel : nat).

Definition emitted (x : xstate T M) : Prop :=
  pending (x_f x) = true -> forall t, x_tls (x_s x) = Some t -> t_wants_write T t = false.

Lemma encrypt_loop_emits : forall F t wb t' wb' u,
  encrypt_loop T F t wb = (t', wb', LpOk u) -> t_wants_write T t' = false.
Proof.
  induction F as [|F IH]; intros t wb t' wb' u E; cbn in E; [discriminate|].
  destruct (t_wants_write T t) eqn:W.
  - destruct (t_write_tls T t) as [[t1 b]|]; [|discriminate]. eapply IH; eauto.
  - now injection E as <- _ _.
Qed.

Lemma sync_output_emits : forall (s : stream T) b s' t,
  sync_output T fuel s b = (s', None) -> x_tls s' = Some t -> t_wants_write T t = false.
Proof.
  intros s b s' t E H. unfold sync_output in E. destruct (x_tls s) as [t0|].
  2:{ injection E as <-. discriminate. }
  unfold encrypt in E. destruct (write_all T fuel t0 b) as [t1 [u| | |]]; try discriminate.
  destruct (encrypt_loop T fuel t1 (x_wbuf s)) as [[t2 wb] [v| | |]] eqn:L; try discriminate.
  injection E as <-. injection H as <-. eapply encrypt_loop_emits; eauto.
Qed.

Lemma fail_emitted : forall s m l r x' l', fail T M s m l r = (x', l') -> emitted x'.
Proof.
  intros s m l r x' l' E. unfold fail in E. destruct r; apply pair_equal_spec in E as [<- _]; discriminate.
Qed.

Lemma sync_emitted : forall s m x' l', sync T M fuel s m = (x', l') -> emitted x'.
Proof.
  intros s m x' l' E. unfold sync in E.
  destruct (sync_input T M fuel s m) as [[[s1 [m1|]] l1] r1]; [|injection E as <- <-; discriminate].
  destruct r1 as [r1|]; [now apply fail_emitted in E|].
  destruct (m_next M m1) as [[m2 r]|]; [|injection E as <- <-; discriminate].
  assert (IO : forall b, match sync_output T fuel s1 b with
            | (s2, None) => (XState s2 m2 (next_await T s2), l1 ++ [XNext r])
            | (s2, Some e) => fail T M s2 m2 (l1 ++ [XNext r]) e
            end = (x', l') -> emitted x').
  { intros b F. destruct (sync_output T fuel s1 b) as [s2 [e|]] eqn:O; [now apply fail_emitted in F|].
    injection F as <- <-. intros _ t Ht. eapply sync_output_emits; eauto. }
  destruct r as [e| |b|e]; eauto; injection E as <- <-; discriminate.
Qed.

Lemma xstep_emitted : forall x a x' l', emitted x -> xstep T M fuel x a = (x', l') -> emitted x'.
Proof.
  intros x a x' l' H E.
  assert (Q : forall s1 h, (let '(y, l) := sync T M fuel s1 (x_m x) in (y, h :: l)) = (x', l') -> emitted x').
  { intros s1 h F. destruct (sync T M fuel s1 (x_m x)) as [y k] eqn:D.
    apply pair_equal_spec in F as [<- _]. eapply sync_emitted; eauto. }
  destruct a as [| |r|r|ok| |o]; cbn [xstep] in E.
  - destruct (x_f x) eqn:F; try (injection E as <- <-; exact H). eapply Q; eauto.
  - destruct (x_f x) eqn:F; try (injection E as <- <-; exact H).
    destruct (start_flush T M fuel (x_s x) (x_m x)) as [y k] eqn:S.
    apply pair_equal_spec in E as [<- _]. unfold start_flush in S. destruct (x_tls (x_s x)) as [t|] eqn:Et.
    + destruct (t_flush T t); [|now apply fail_emitted in S].
      destruct (sync_output T fuel _ []) as [s2 [e|]] eqn:O; [now apply fail_emitted in S|].
      injection S as <- <-. intros _ t1 Ht. eapply sync_output_emits; eauto.
    + injection S as <- <-. intros _ t1 Ht. cbn in Ht. congruence.
  - destruct (reading (x_f x)); [|injection E as <- <-; exact H].
    destruct r as [[|b r]|]; try (injection E as <- <-; discriminate). eapply Q; eauto.
  - destruct (writing (x_f x)) eqn:R; [|injection E as <- <-; exact H].
    destruct r as [[|n]|]; try (injection E as <- <-; discriminate).
    destruct (Nat.leb (S n) _); [|injection E as <- <-; exact H]. cbn [x_wbuf] in E.
    assert (P : pending (x_f x) = true) by (destruct (x_f x); try discriminate R; reflexivity).
    specialize (H P).
    destruct (skipn (S n) (x_wbuf (x_s x))).
    + destruct (x_f x) in E; try (apply pair_equal_spec in E as [<- _]; intros _; exact H). eapply Q; eauto.
    + apply pair_equal_spec in E as [<- _]. intros _. exact H.
  - destruct (x_f x); injection E as <- <-; try exact H. discriminate.
  - destruct (pending (x_f x)); injection E as <- <-; [discriminate|exact H].
  - destruct (x_f x) eqn:F; try (injection E as <- <-; exact H).
    destruct (m_call M (x_m x) o) as [[m1 r]|]; injection E as <- <-; discriminate.
Qed.

(** Whenever a future waits, the session has no record left to emit. *)
Theorem records_emitted : forall s m acts x l,
  xrun T M fuel (XState s m FIdle) acts = (x, l) ->
  pending (x_f x) = true -> forall t, x_tls (x_s x) = Some t -> t_wants_write T t = false.
Proof.
  intros s m acts x l E. enough (G : emitted x) by exact G. revert E.
  eapply (xrun_ind T M fuel (fun x _ => emitted x)); [discriminate|].
  intros x1 l1 a x2 l2 H E. eapply xstep_emitted; eauto.
Qed.
End Emitted.
