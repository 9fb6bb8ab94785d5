(** Proofs about the stream with TLS: the bytes between the session and the socket. *)
From Coq Require Import List NArith Bool PeanoNat Lia.
From Verif Require Import Base Stream SpecStream StreamProofs NetProofs.
Import ListNotations.

Ltac rw H := let D := fresh in pose proof H as D; unfold bytes in *; rewrite D; clear D.

Section Cipher.
Context (T : tls) (M : machine) (fuel : nat).
Notation T' := (recorded T).

Lemma decrypt_read_rec : forall F t pl t' r rc, decrypt_read T F t pl = (t', r) ->
  decrypt_read T' F (t, rc) pl = ((t', rc), r).
Proof.
  induction F as [|F IH]; intros t pl t' r rc E; cbn in *; [now injection E as <- <-|].
  destruct (t_read T t) as [t1 [b| |]]; [now apply IH| |]; now injection E as <- <-.
Qed.

Lemma decrypt_loop_rec : forall F t rb pl t' rb' r i o,
  decrypt_loop T F t rb pl = (t', rb', r) ->
  exists i', decrypt_loop T' F (t, (i, o)) rb pl = ((t', (i', o)), rb', r) /\ i' ++ rb' = i ++ rb.
Proof.
  induction F as [|F IH]; intros t rb pl t' rb' r i o E.
  - cbn in E. injection E as <- <- <-. exists i. auto.
  - cbn [decrypt_loop] in *. change (t_wants_read T' (t, (i, o))) with (t_wants_read T t).
    destruct (t_wants_read T t && _); [|injection E as <- <- <-; exists i; auto].
    cbn [t_read_tls t_process recorded] in *.
    destruct (t_read_tls T t rb) as [[t1 n]|]; [|injection E as <- <- <-; exists i; auto].
    cbn [recorded t_process] in *.
    destruct (t_process T t1) as [t2|]; cbn [option_map].
    2:{ injection E as <- <- <-. exists (i ++ firstn n rb). split; [reflexivity|].
        now rewrite <- app_assoc, firstn_skipn. }
    destruct (decrypt_read T (S F) t2 pl) as [t3 q] eqn:D.
    rw (decrypt_read_rec _ _ _ _ _ (i ++ firstn n rb, o) D).
    destruct q as [pl'| | |].
    { destruct (IH _ _ _ _ _ _ (i ++ firstn n rb) o E) as (i' & E9 & H).
      exists i'. split; [exact E9|]. now rewrite H, <- app_assoc, firstn_skipn. }
    all: injection E as <- <- <-; exists (i ++ firstn n rb); split; [reflexivity|];
      now rewrite <- app_assoc, firstn_skipn.
Qed.

Lemma write_all_rec : forall F t b t' r rc, write_all T F t b = (t', r) ->
  write_all T' F (t, rc) b = ((t', rc), r).
Proof.
  induction F as [|F IH]; intros t b t' r rc E; destruct b as [|c b]; cbn in *;
    try (now injection E as <- <-).
  destruct (t_write T t (c :: b)) as [[t1 [|n]]|]; cbn in *; try (now injection E as <- <-).
  now apply IH.
Qed.

Lemma encrypt_loop_rec : forall F t wb t' wb' r i w, encrypt_loop T F t wb = (t', wb', r) ->
  encrypt_loop T' F (t, (i, w ++ wb)) wb = ((t', (i, w ++ wb')), wb', r).
Proof.
  induction F as [|F IH]; intros t wb t' wb' r i w E; cbn in *; [now injection E as <- <- <-|].
  destruct (t_wants_write T t); [|now injection E as <- <- <-].
  destruct (t_write_tls T t) as [[t1 b]|]; [|now injection E as <- <- <-].
  rewrite <- app_assoc. now apply IH.
Qed.

Lemma encrypt_rec : forall F t wb b t' wb' r i w, encrypt T F t wb b = (t', wb', r) ->
  encrypt T' F (t, (i, w ++ wb)) wb b = ((t', (i, w ++ wb')), wb', r).
Proof.
  intros F t wb b t' wb' r i w E. unfold encrypt in *.
  destruct (write_all T F t b) as [t1 q] eqn:D.
  rw (write_all_rec _ _ _ _ _ (i, w ++ wb) D).
  destruct q; try (now injection E as <- <- <-). now apply encrypt_loop_rec.
Qed.

(** The same stream with recorded session. [rd], [wr]: read and written so far. *)
Definition srel (rd wr : bytes) (s : stream T) (s' : stream T') : Prop :=
  exists t i, x_tls s = Some t /\ i ++ x_rbuf s = rd /\
    s' = @StreamSt T' (Some (t, (i, wr ++ x_wbuf s))) (x_rbuf s) (x_wbuf s).

Lemma sync_input_rec : forall rd wr s s' (m : m_st M) s1 m1 l r, srel rd wr s s' ->
  sync_input T M fuel s m = (s1, m1, l, r) ->
  exists s1', sync_input T' M fuel s' m = (s1', m1, l, r) /\ srel rd wr s1 s1'.
Proof.
  intros rd wr s s' m s1 m1 l r (t & i & H1 & H2 & ->) E. unfold sync_input, decrypt in *.
  rewrite H1 in E. cbn [x_tls x_rbuf x_wbuf].
  destruct (decrypt_loop T fuel t (x_rbuf s) []) as [[t1 rb] q] eqn:D.
  destruct (decrypt_loop_rec _ _ _ _ _ _ _ i (wr ++ x_wbuf s) D) as (i' & D' & Hi).
  unfold bytes in *. rewrite D'.
  destruct q as [[|c b]| | |]; try (destruct (m_enqueue M m (c :: b)));
    injection E as <- <- <- <-; eexists; (split; [reflexivity|]); exists t1, i'; cbn;
    rewrite Hi; auto.
Qed.

Lemma sync_output_rec : forall rd wr s s' b s1 r, srel rd wr s s' ->
  sync_output T fuel s b = (s1, r) ->
  exists s1', sync_output T' fuel s' b = (s1', r) /\ srel rd wr s1 s1'.
Proof.
  intros rd wr s s' b s1 r (t & i & H1 & H2 & ->) E. unfold sync_output in *.
  rewrite H1 in E. cbn [x_tls x_rbuf x_wbuf].
  destruct (encrypt T fuel t (x_wbuf s) b) as [[t1 wb] q] eqn:D.
  rw (encrypt_rec _ _ _ _ _ _ _ i wr D).
  destruct q; injection E as <- <-; eexists; (split; [reflexivity|]); exists t1, i; cbn; auto.
Qed.

Definition xrel (rd wr : bytes) (x : xstate T M) (x' : xstate T' M) : Prop :=
  srel rd wr (x_s x) (x_s x') /\ x_m x' = x_m x /\ x_f x' = x_f x.

Lemma srel_wbuf : forall rd wr s s', srel rd wr s s' -> x_wbuf s' = x_wbuf s.
Proof. now intros rd wr s s' (t & i & _ & _ & ->). Qed.

Lemma fail_rec : forall rd wr s s' (m : m_st M) l r x k, srel rd wr s s' ->
  fail T M s m l r = (x, k) -> exists x', fail T' M s' m l r = (x', k) /\ xrel rd wr x x'.
Proof.
  intros rd wr s s' m l r x k H E. unfold fail in *.
  destruct r; apply pair_equal_spec in E as [<- <-]; eexists; (split; [reflexivity|]);
    split; auto.
Qed.

Lemma sync_rec : forall rd wr s s' (m : m_st M) x l, srel rd wr s s' ->
  sync T M fuel s m = (x, l) ->
  exists x', sync T' M fuel s' m = (x', l) /\ xrel rd wr x x'.
Proof.
  intros rd wr s s' m x l H E. unfold sync in *.
  destruct (sync_input T M fuel s m) as [[[s1 m1] l1] r1] eqn:D.
  destruct (sync_input_rec _ _ _ _ _ _ _ _ _ H D) as (s1' & -> & H1).
  destruct m1 as [m1|].
  2:{ apply pair_equal_spec in E as [<- <-]. eexists. split; [reflexivity|]. split; auto. }
  destruct r1 as [r1|]; [eapply fail_rec; eauto|].
  destruct (m_next M m1) as [[m2 r]|].
  2:{ apply pair_equal_spec in E as [<- <-]. eexists. split; [reflexivity|]. split; auto. }
  assert (O : forall b,
    match sync_output T fuel s1 b with
    | (s2, None) => (XState s2 m2 (next_await T s2), l1 ++ [XNext r])
    | (s2, Some e) => fail T M s2 m2 (l1 ++ [XNext r]) e
    end = (x, l) ->
    exists x', match sync_output T' fuel s1' b with
    | (s2, None) => (XState s2 m2 (next_await T' s2), l1 ++ [XNext r])
    | (s2, Some e) => fail T' M s2 m2 (l1 ++ [XNext r]) e
    end = (x', l) /\ xrel rd wr x x').
  { intros b F. destruct (sync_output T fuel s1 b) as [s2 q] eqn:G.
    destruct (sync_output_rec _ _ _ _ _ _ _ H1 G) as (s2' & -> & H2).
    destruct q as [e|]; [eapply fail_rec; eauto|].
    apply pair_equal_spec in F as [<- <-]. eexists. split; [reflexivity|]. split; auto. split; auto.
    cbn. unfold next_await. now rewrite (srel_wbuf _ _ _ _ H2). }
  destruct r as [e| |b|e]; try (now apply O);
    apply pair_equal_spec in E as [<- <-]; eexists; (split; [reflexivity|]); split; auto.
Qed.

Lemma start_flush_rec : forall rd wr s s' (m : m_st M) x l, srel rd wr s s' ->
  start_flush T M fuel s m = (x, l) ->
  exists x', start_flush T' M fuel s' m = (x', l) /\ xrel rd wr x x'.
Proof.
  intros rd wr s s' m x l H E. assert (H' := H). unfold start_flush in *.
  destruct H as (t & i & H1 & H2 & ->). rewrite H1 in E. cbn [x_tls x_rbuf x_wbuf recorded t_flush].
  destruct (t_flush T t) as [t1|]; cbn [option_map]; [|eapply fail_rec; eauto].
  destruct (sync_output T fuel _ []) as [s2 q] eqn:G.
  assert (H3 : srel rd wr (StreamSt (Some t1) (x_rbuf s) (x_wbuf s))
    (@StreamSt T' (Some (t1, (i, wr ++ x_wbuf s))) (x_rbuf s) (x_wbuf s))).
  { exists t1, i. auto. }
  destruct (sync_output_rec _ _ _ _ _ _ _ H3 G) as (s2' & G' & H4).
  destruct (sync_output T' fuel _ []) as [s9 q9].
  injection G' as -> ->.
  destruct q as [e|]; [eapply fail_rec; eauto|].
  apply pair_equal_spec in E as [<- <-]. eexists. split; [reflexivity|]. split; auto. split; auto.
  cbn. unfold flush_await. now rewrite (srel_wbuf _ _ _ _ H4).
Qed.

Lemma xstep_rec : forall rd wr x x' a y l, xrel rd wr x x' -> xstep T M fuel x a = (y, l) ->
  exists y', xstep T' M fuel x' a = (y', l) /\ xrel (rd ++ xread l) (wr ++ xwritten l) y y'.
Proof.
  intros rd wr [s m f] [s' m' f'] a y l (H & Hm & Hf) E. cbn in H, Hm, Hf. subst m' f'.
  assert (N : forall g, xrel rd wr (XState s m g) (XState s' m g)) by (intro; now split).
  assert (Sy : forall h s1 s1', srel (rd ++ xread [h]) (wr ++ xwritten [h]) s1 s1' ->
    (let '(z, k) := sync T M fuel s1 m in (z, h :: k)) = (y, l) ->
    exists y', (let '(z, k) := sync T' M fuel s1' m in (z, h :: k)) = (y', l) /\
      xrel (rd ++ xread l) (wr ++ xwritten l) y y').
  { intros h s1 s1' H1 E1. destruct (sync T M fuel s1 m) as [z k] eqn:D.
    apply pair_equal_spec in E1 as [<- <-].
    destruct (sync_rec _ _ _ _ _ _ _ H1 D) as (z' & -> & Hz). exists z'. split; [reflexivity|].
    apply sync_entries, iter_quiet in D as (D1 & D2).
    change (h :: k) with ([h] ++ k). now rewrite xread_app, xwritten_app, D1, D2, !app_nil_r. }
  destruct a as [| |r|r|ok| |o]; cbn [xstep x_s x_m x_f] in *.
  - destruct f; try (injection E as <- <-; eexists; split; [reflexivity|];
      cbn; rewrite !app_nil_r; apply N).
    eapply Sy; [|exact E]. cbn. now rewrite !app_nil_r.
  - destruct f; try (injection E as <- <-; eexists; split; [reflexivity|];
      cbn; rewrite !app_nil_r; apply N).
    destruct (start_flush T M fuel s m) as [z k] eqn:D. injection E as <- <-.
    destruct (start_flush_rec _ _ _ _ _ _ _ H D) as (z' & -> & Hz). exists z'.
    split; [reflexivity|]. cbn.
    assert (W : xread k = [] /\ xwritten k = []).
    { unfold start_flush, fail in D. repeat match type of D with
        | context [match ?e with _ => _ end] => destruct e
        end; injection D as _ <-; auto. }
    destruct W as (-> & ->). now rewrite !app_nil_r.
  - destruct (reading f); [|injection E as <- <-; eexists; split; [reflexivity|];
      cbn; rewrite !app_nil_r; apply N].
    destruct r as [[|c b]|].
    + injection E as <- <-. eexists. split; [reflexivity|]. cbn. rewrite !app_nil_r. apply N.
    + eapply Sy; [|exact E]. destruct H as (t & i & H1 & H2 & ->). exists t, i.
      cbn [x_tls x_rbuf x_wbuf xread xwritten]. rewrite !app_nil_r. split; [exact H1|]. split; [|reflexivity].
      now rewrite app_assoc, H2.
    + injection E as <- <-. eexists. split; [reflexivity|]. cbn. rewrite !app_nil_r. apply N.
  - destruct (writing f); [|injection E as <- <-; eexists; split; [reflexivity|];
      cbn; rewrite !app_nil_r; apply N].
    destruct r as [[|n]|];
      try (injection E as <- <-; eexists; split; [reflexivity|]; cbn; rewrite !app_nil_r; apply N).
    assert (Hw := srel_wbuf _ _ _ _ H). cbn [x_wbuf] in *. rewrite Hw.
    destruct (Nat.leb (S n) (length (x_wbuf s)));
      [|injection E as <- <-; eexists; split; [reflexivity|]; cbn; rewrite !app_nil_r; apply N].
    assert (H3 : srel (rd ++ []) (wr ++ firstn (S n) (x_wbuf s))
      (StreamSt (x_tls s) (x_rbuf s) (skipn (S n) (x_wbuf s)))
      (StreamSt (x_tls s') (x_rbuf s') (skipn (S n) (x_wbuf s)))).
    { destruct H as (t & i & H1 & H2 & ->). exists t, i. cbn [x_tls x_rbuf x_wbuf].
      rewrite app_nil_r, <- app_assoc, firstn_skipn. auto. }
    assert (K : forall g, xrel (rd ++ xread [@XWrote M (firstn (S n) (x_wbuf s))])
      (wr ++ xwritten [@XWrote M (firstn (S n) (x_wbuf s))])
      (XState (StreamSt (x_tls s) (x_rbuf s) (skipn (S n) (x_wbuf s))) m g)
      (XState (StreamSt (x_tls s') (x_rbuf s') (skipn (S n) (x_wbuf s))) m g)).
    { intro g. cbn [xread xwritten]. rewrite (app_nil_r (firstn _ _)). split; auto. }
    destruct (skipn (S n) (x_wbuf s)) as [|c w] eqn:Sk.
    + destruct f; try (injection E as <- <-; eexists; split; [reflexivity|]; apply K).
      eapply Sy; [|exact E]. cbn [xread xwritten]. rewrite (app_nil_r (firstn _ _)). exact H3.
    + injection E as <- <-. eexists. split; [reflexivity|]. apply K.
  - destruct f; injection E as <- <-; eexists; (split; [reflexivity|]); cbn; rewrite !app_nil_r; apply N.
  - destruct (pending f); injection E as <- <-; eexists; (split; [reflexivity|]);
      cbn; rewrite !app_nil_r; apply N.
  - destruct f; try (injection E as <- <-; eexists; split; [reflexivity|];
      cbn; rewrite !app_nil_r; apply N).
    destruct (m_call M m o) as [[m1 r]|]; injection E as <- <-; eexists; (split; [reflexivity|]);
      cbn; rewrite !app_nil_r; [|apply N]. now split.
Qed.

Theorem ciphertext : forall t0 m acts x l,
  xrun T M fuel (XState (stream_tls T t0) m FIdle) acts = (x, l) ->
  exists t i o,
    xrun T' M fuel (XState (stream_tls T' (t0, ([], []))) m FIdle) acts =
      (XState (@StreamSt T' (Some (t, (i, o))) (x_rbuf (x_s x)) (x_wbuf (x_s x))) (x_m x) (x_f x), l) /\
    x_tls (x_s x) = Some t /\ i ++ x_rbuf (x_s x) = xread l /\ o = xwritten l ++ x_wbuf (x_s x).
Proof.
  assert (G : forall acts rd wr x x' y l, xrel rd wr x x' -> xrun T M fuel x acts = (y, l) ->
    exists y', xrun T' M fuel x' acts = (y', l) /\ xrel (rd ++ xread l) (wr ++ xwritten l) y y').
  { induction acts as [|a acts IH]; intros rd wr x x' y l H E; cbn in *.
    - injection E as <- <-. exists x'. cbn. now rewrite !app_nil_r.
    - destruct (xstep T M fuel x a) as [x1 l1] eqn:E1.
      destruct (xstep_rec _ _ _ _ _ _ _ H E1) as (x1' & -> & H1).
      destruct (xrun T M fuel x1 acts) as [x2 l2] eqn:E2. injection E as <- <-.
      destruct (IH _ _ _ _ _ _ H1 E2) as (y' & -> & H2). exists y'. split; [reflexivity|].
      now rewrite xread_app, xwritten_app, !app_assoc. }
  intros t0 m acts x l E.
  assert (H0 : xrel [] [] (XState (stream_tls T t0) m FIdle)
    (XState (stream_tls T' (t0, ([], []))) m FIdle)).
  { split; [exists t0, []; auto|split; reflexivity]. }
  destruct (G acts _ _ _ _ _ _ H0 E) as ([s' m' f'] & E' & (t & i & H1 & H2 & H3) & Hm & Hf).
  cbn in *. subst. exists t, i, (xwritten l ++ x_wbuf (x_s x)). auto.
Qed.
End Cipher.
