(** Proofs about the stream with TLS. *)
From Coq Require Import List NArith Bool PeanoNat Lia.
From Verif Require Import Base Stream SpecStream StreamProofs StreamThms.
Import ListNotations.

Section Receive.
Context (T : tls) (M : machine) (fuel : nat) (dec : t_st T -> bytes -> bytes)
  (Law : tls_receives T dec).
Notation xst := (xstate T M).

Lemma decrypt_read_ok : forall F t p t' p', decrypt_read T F t p = (t', LpOk p') ->
  dec t' [] = [] /\ t_wants_read T t' = true /\
  exists b, p' = p ++ b /\ forall x, dec t x = b ++ dec t' x.
Proof.
  induction F as [|F IH]; intros t p t' p' E; cbn in E; [discriminate|].
  destruct (t_read T t) as [t1 [b| |]] eqn:R.
  - apply IH in E as (E1 & E2 & c & -> & E3). repeat split; auto. exists (b ++ c).
    split; [now rewrite app_assoc|]. intro x. rewrite (tr_data T dec Law _ _ _ x R), E3. apply app_assoc.
  - injection E as <- <-. destruct (tr_block T dec Law _ _ [] R) as (E1 & E2 & E3). repeat split; auto.
    exists []. split; [now rewrite app_nil_r|]. intro x. apply (tr_block T dec Law _ _ x R).
  - discriminate.
Qed.

Lemma decrypt_loop_ok : forall F t rb p t' rb' p',
  t_wants_read T t = true -> dec t [] = [] ->
  decrypt_loop T F t rb p = (t', rb', LpOk p') ->
  rb' = [] /\ dec t' [] = [] /\ t_wants_read T t' = true /\
  exists b, p' = p ++ b /\ forall y, dec t (rb ++ y) = b ++ dec t' y.
Proof.
  induction F as [|F IH]; intros t rb p t' rb' p' Hw Hd E; [discriminate|].
  cbn [decrypt_loop] in E. rewrite Hw in E. destruct rb as [|c rb]; cbn [negb andb] in E.
  - injection E as <- <- <-. repeat split; auto. exists []. split; [now rewrite app_nil_r|]. reflexivity.
  - destruct (t_read_tls T t (c :: rb)) as [[t1 n]|] eqn:E1; [|discriminate].
    destruct (t_process T t1) as [t2|] eqn:E2; [|discriminate].
    destruct (decrypt_read T (S F) t2 p) as [t3 r] eqn:E3. destruct r as [q| | |]; try discriminate.
    apply decrypt_read_ok in E3 as (R1 & R2 & b & -> & R3).
    apply IH in E as (-> & H1 & H2 & b' & -> & H3); auto. repeat split; auto.
    exists (b ++ b'). split; [now rewrite app_assoc|]. intro y.
    destruct (tr_net T dec Law _ _ _ _ _ E1 E2) as (_ & N).
    rewrite <- (firstn_skipn n (c :: rb)), <- app_assoc, N, R3, H3. apply app_assoc.
Qed.

Lemma write_all_dec : forall F t b t' r, write_all T F t b = (t', r) ->
  (forall x, dec t' x = dec t x) /\ t_wants_read T t' = t_wants_read T t.
Proof.
  induction F as [|F IH]; intros t b t' r E; destruct b as [|c b]; cbn in E;
    try (injection E as <- <-; auto; fail).
  destruct (t_write T t (c :: b)) as [[t1 [|n]]|] eqn:E1.
  - injection E as <- <-. split; [intro x|]; apply (tr_write T dec Law _ _ _ _ [] E1) || apply (tr_write T dec Law _ _ _ _ x E1).
  - apply IH in E as (H1 & H2). split.
    + intro x. rewrite H1. apply (tr_write T dec Law _ _ _ _ x E1).
    + rewrite H2. apply (tr_write T dec Law _ _ _ _ [] E1).
  - injection E as <- <-. auto.
Qed.

Lemma encrypt_loop_dec : forall F t wb t' wb' r, encrypt_loop T F t wb = (t', wb', r) ->
  (forall x, dec t' x = dec t x) /\ t_wants_read T t' = t_wants_read T t.
Proof.
  induction F as [|F IH]; intros t wb t' wb' r E; cbn in E.
  - injection E as <- <- <-. auto.
  - destruct (t_wants_write T t); [|injection E as <- <- <-; auto].
    destruct (t_write_tls T t) as [[t1 b]|] eqn:E1; [|injection E as <- <- <-; auto].
    apply IH in E as (H1 & H2). split.
    + intro x. rewrite H1. apply (tr_write_tls T dec Law _ _ _ x E1).
    + rewrite H2. apply (tr_write_tls T dec Law _ _ _ [] E1).
Qed.

Lemma encrypt_dec : forall F t wb b t' wb' r, encrypt T F t wb b = (t', wb', r) ->
  (forall x, dec t' x = dec t x) /\ t_wants_read T t' = t_wants_read T t.
Proof.
  intros F t wb b t' wb' r E. unfold encrypt in E.
  destruct (write_all T F t b) as [t1 r1] eqn:E1. apply write_all_dec in E1 as (H1 & H2).
  destruct r1; try (injection E as <- <- <-; auto; fail).
  apply encrypt_loop_dec in E as (H3 & H4). split; [intro x; now rewrite H3|now rewrite H4].
Qed.

(** Session without unread plaintext, asking for input. *)
Definition ready (t : t_st T) : Prop := t_wants_read T t = true /\ dec t [] = [].

Lemma sync_input_tls : forall (s : stream T) (m : m_st M) t s1 m1 l1,
  x_tls s = Some t -> ready t ->
  sync_input T M fuel s m = (s1, m1, l1, None) ->
  exists t', x_tls s1 = Some t' /\ ready t' /\ x_rbuf s1 = [] /\ x_wbuf s1 = x_wbuf s /\
    xread l1 = [] /\ (m1 <> None -> forall y, dec t (x_rbuf s ++ y) = xgiven l1 ++ dec t' y).
Proof.
  intros s m t s1 m1 l1 Ht (Hw & Hd) E. unfold sync_input in E. rewrite Ht in E.
  destruct (decrypt T fuel t (x_rbuf s)) as [[t1 rb] r] eqn:D. destruct r as [b| | |]; try discriminate.
  apply decrypt_loop_ok in D as (-> & D1 & D2 & c & -> & D3); auto. cbn in E.
  destruct c as [|y c].
  - injection E as <- <- <-. exists t1. repeat split; auto.
  - destruct (m_enqueue M m (y :: c)) as [m'|]; injection E as <- <- <-; exists t1; repeat split; auto.
    + intros _ z. rewrite D3. cbn [xgiven]. now rewrite app_nil_r.
    + intro F. now contradiction F.
Qed.

Lemma sync_output_tls : forall (s : stream T) t b s2 r,
  x_tls s = Some t -> ready t -> sync_output T fuel s b = (s2, r) ->
  exists t', x_tls s2 = Some t' /\ ready t' /\ x_rbuf s2 = x_rbuf s /\ forall y, dec t' y = dec t y.
Proof.
  intros s t b s2 r Ht (Hw & Hd) E. unfold sync_output in E. rewrite Ht in E.
  destruct (encrypt T fuel t (x_wbuf s) b) as [[t1 wb] r1] eqn:D. apply encrypt_dec in D as (D1 & D2).
  destruct r1; injection E as <- <-; exists t1; cbn; repeat split; auto; try (now rewrite D2); now rewrite D1.
Qed.

(** What one iteration does: the plaintext of everything read so far is handed over before
    [State::next] is called. *)
Lemma sync_tls : forall (s : stream T) (m : m_st M) t x' l',
  x_tls s = Some t -> ready t -> sync T M fuel s m = (x', l') ->
  xread l' = [] /\
  (forall k r l2, l' = k ++ XNext r :: l2 -> dec t (x_rbuf s) = xgiven k) /\
  (no_error l' -> x_f x' <> FDead ->
   exists t', x_tls (x_s x') = Some t' /\ ready t' /\
     forall y, dec t (x_rbuf s ++ y) = xgiven l' ++ dec t' (x_rbuf (x_s x') ++ y)).
Proof.
  intros s m t x' l' Ht Hr E. unfold sync in E.
  destruct (sync_input T M fuel s m) as [[[s1 m1] l1] r1] eqn:D.
  assert (D' := D). apply sync_input_log in D' as (_ & D').
  assert (N1 : xnexts l1 = []).
  { destruct D' as [(_ & ->)|[(b & m' & _ & _ & -> & _)|(_ & ->)]]; reflexivity. }
  assert (R1 : xread l1 = []).
  { destruct D' as [(_ & ->)|[(b & m' & _ & _ & -> & _)|(_ & ->)]]; reflexivity. }
  assert (NN : forall k r l2, ~ l1 = k ++ XNext r :: l2).
  { intros k r l2 ->. rewrite xnexts_app in N1. cbn in N1. now destruct (xnexts k). }
  destruct m1 as [m1|].
  2:{ injection E as <- <-. repeat split; auto.
      - intros k r l2 F. now apply NN in F.
      - intros _ F. now contradiction F. }
  destruct r1 as [r1|].
  { assert (E' := E). apply fail_log in E as (e & -> & He & Hs & Hm & Hf).
    split; [|split].
    - rewrite xread_app, R1. destruct He as [->|[->| ->]]; reflexivity.
    - intros k r l2 F. exfalso. apply (f_equal xnexts) in F. rewrite !xnexts_app, N1 in F. cbn in F.
      destruct He as [->|[->| ->]]; cbn in F; now destruct (xnexts k).
    - intros (F1 & F2) F3. exfalso. rewrite !xrets_app in F1, F2.
      destruct He as [->|[->| ->]].
      + apply F1. apply in_or_app. right. now left.
      + apply F2. apply in_or_app. right. now left.
      + unfold fail in E'. destruct r1; apply pair_equal_spec in E' as [<- E']; try (now contradiction F3);
          apply app_inj_tail in E' as [_ E']; discriminate. }
  apply (sync_input_tls _ _ t) in D as (t1 & T1 & T2 & T3 & T4 & _ & T5); auto.
  specialize (T5 ltac:(discriminate)).
  assert (T6 : dec t (x_rbuf s) = xgiven l1).
  { specialize (T5 []). destruct T2 as (_ & T2). now rewrite T2, !app_nil_r in T5. }
  destruct (m_next M m1) as [[m2 r]|].
  2:{ injection E as <- <-. split; [|split].
      - now rewrite xread_app, R1.
      - intros k r l2 F. exfalso. apply (f_equal xnexts) in F. rewrite !xnexts_app, N1 in F. cbn in F. now destruct (xnexts k).
      - intros _ F. now contradiction F. }
  assert (NX : forall lr, xnexts lr = [] -> forall k r' l2, (l1 ++ [XNext r]) ++ lr = k ++ XNext r' :: l2 -> k = l1).
  { intros lr Hlr k r' l2 F. rewrite <- app_assoc in F. cbn in F. symmetry in F.
    apply app_cons_split in F as [(c & -> & F)|(c & -> & F)].
    - exfalso. rewrite F, xnexts_app in Hlr. cbn in Hlr. now destruct (xnexts c).
    - destruct c as [|e c]; [now rewrite app_nil_r|]. exfalso. cbn in F. injection F as <- _.
      rewrite xnexts_app in N1. cbn in N1. now destruct (xnexts k). }
  assert (G : forall lr, xread lr = [] -> xgiven lr = [] -> xread ((l1 ++ [XNext r]) ++ lr) = [] /\
     xgiven ((l1 ++ [XNext r]) ++ lr) = xgiven l1).
  { intros lr H1 H2. rewrite !xread_app, !xgiven_app, R1, H1, H2. cbn. now rewrite !app_nil_r. }
  assert (IO : forall b, match sync_output T fuel s1 b with
            | (s2, None) => (XState s2 m2 (next_await T s2), l1 ++ [XNext r])
            | (s2, Some e) => fail T M s2 m2 (l1 ++ [XNext r]) e
            end = (x', l') ->
    xread l' = [] /\ (forall k r0 l2, l' = k ++ XNext r0 :: l2 -> dec t (x_rbuf s) = xgiven k) /\
    (no_error l' -> x_f x' <> FDead ->
   exists t', x_tls (x_s x') = Some t' /\ ready t' /\
     forall y, dec t (x_rbuf s ++ y) = xgiven l' ++ dec t' (x_rbuf (x_s x') ++ y))).
  { intros b IO. destruct (sync_output T fuel s1 b) as [s2 [e|]] eqn:O.
    - assert (IO' := IO). apply fail_log in IO as (e' & -> & He & Hs & Hm & Hf).
      destruct (G [e']) as (G1 & G2); try (destruct He as [->|[->| ->]]; reflexivity).
      split; [exact G1|split].
      + intros k r' l2 F. apply NX in F; [now rewrite F|]. destruct He as [->|[->| ->]]; reflexivity.
      + intros (F1 & F2) F3. exfalso. rewrite !xrets_app in F1, F2.
        destruct He as [->|[->| ->]].
        * apply F1. apply in_or_app. right. now left.
        * apply F2. apply in_or_app. right. now left.
        * unfold fail in IO'. destruct e; apply pair_equal_spec in IO' as [<- IO']; try (now contradiction F3);
            apply app_inj_tail in IO' as [_ IO']; discriminate.
    - injection IO as <- <-. rewrite <- (app_nil_r (l1 ++ [XNext r])).
      destruct (G [] eq_refl eq_refl) as (G1 & G2). split; [exact G1|split].
      + intros k r' l2 F. apply NX in F; [now rewrite F|reflexivity].
      + intros _ _. apply (sync_output_tls _ t1) in O as (t2 & O1 & O2 & O3 & O4); auto.
        exists t2. split; [exact O1|]. split; [exact O2|]. intro y. cbn [x_s]. rewrite O3, T3, O4, G2. apply T5. }
  destruct r as [e| |b|e]; try (now apply (IO [] E)); try (now apply (IO b E)).
  - injection E as <- <-. destruct (G [XRet (RetEvent e)] eq_refl eq_refl) as (G1 & G2).
    split; [exact G1|split].
    + intros k r' l2 F. apply NX in F; [now rewrite F|reflexivity].
    + intros _ _. exists t1. split; [exact T1|]. split; [exact T2|]. intro y. rewrite G2. cbn [x_s]. rewrite T3. apply T5.
  - injection E as <- <-. destruct (G [XRet (RetState e)] eq_refl eq_refl) as (G1 & G2).
    split; [exact G1|split].
    + intros k r' l2 F. apply NX in F; [now rewrite F|reflexivity].
    + intros _ _. exists t1. split; [exact T1|]. split; [exact T2|]. intro y. rewrite G2. cbn [x_s]. rewrite T3. apply T5.
Qed.

Context (t0 : t_st T).

Definition tinv (x : xst) (l : list (xlog M)) : Prop :=
  no_error l -> x_f x <> FDead ->
  exists t, x_tls (x_s x) = Some t /\ ready t /\
    forall y, dec t0 (xread l ++ y) = xgiven l ++ dec t (x_rbuf (x_s x) ++ y).

Lemma no_error_app : forall l l' : list (xlog M), no_error (l ++ l') -> no_error l /\ no_error l'.
Proof.
  intros l l' (H1 & H2). rewrite xrets_app in H1, H2.
  split; split; intro F; solve [apply H1, in_or_app; auto|apply H2, in_or_app; auto].
Qed.

Lemma xstep_dead : forall (x : xst) a, x_f x = FDead -> xstep T M fuel x a = (x, []).
Proof. intros x a H. destruct a; cbn; rewrite H; reflexivity. Qed.

Lemma xstep_tinv : forall x l a x' l',
  tinv x l -> xstep T M fuel x a = (x', l') -> tinv x' (l ++ l').
Proof.
  intros x l a x' l' H E He Hd. apply no_error_app in He as (He & He').
  assert (Hx : x_f x <> FDead).
  { intro F. rewrite (xstep_dead x a F) in E. now injection E as <- <-. }
  destruct (H He Hx) as (t & H1 & H2 & H3). clear H.
  assert (Q : forall l1, x_s x' = x_s x -> xread l1 = [] -> xgiven l1 = [] ->
    exists t, x_tls (x_s x') = Some t /\ ready t /\
    forall y, dec t0 (xread (l ++ l1) ++ y) = xgiven (l ++ l1) ++ dec t (x_rbuf (x_s x') ++ y)).
  { intros l1 Q1 Q2 Q3. exists t. rewrite Q1, xread_app, xgiven_app, Q2, Q3, !app_nil_r. auto. }
  assert (E' := E). apply xstep_log in E'.
  inversion E' as [Hs E0|l0 Hfl Hl Hl' Hg Hrb E0|h l0 s1 Es Hh E0|e He0 Hs ? E0|n ? ? Hs E0|rr ? Hs E0|e He0 Hs E0].
  - now apply Q.
  - subst l'. clear E'.
    assert (HR : xread l0 = []).
    { clear -Hl. induction Hl as [|e l0 He _ IH]; [reflexivity|]. destruct e; cbn in *; auto. now destruct He. }
    assert (T1 : exists t', x_tls (x_s x') = Some t' /\ ready t' /\ forall y, dec t' y = dec t y).
    { unfold start_flush in Hfl. rewrite H1 in Hfl. destruct (t_flush T t) as [t1|] eqn:E2.
      - assert (R1 : ready t1).
        { destruct (tr_flush T dec Law _ _ [] E2) as (F1 & F2). destruct H2. split; congruence. }
        destruct (sync_output T fuel _ []) as [s2 r] eqn:O.
        apply (sync_output_tls _ t1) in O as (t2 & O1 & O2 & O3 & O4); auto.
        exists t2. assert (x_s x' = s2) as ->.
        { destruct r as [e|]; [now apply fail_log in Hfl as (_ & _ & _ & Hfl & _)|now injection Hfl as <- _]. }
        repeat split; try apply O2; auto.
        intro y. rewrite O4. apply (tr_flush T dec Law _ _ y E2).
      - exists t. apply fail_log in Hfl as (_ & _ & _ & -> & _). auto. }
    destruct T1 as (t' & T1 & T2 & T3). exists t'. split; [exact T1|]. split; [exact T2|]. intro y.
    rewrite xread_app, xgiven_app. cbn [xread xgiven]. rewrite HR, Hg, !app_nil_r, Hrb, T3. apply H3.
  - subst l'. assert (Et : x_tls s1 = Some t /\ xread [h] = skipn (length (x_rbuf (x_s x))) (x_rbuf s1) /\
      x_rbuf s1 = x_rbuf (x_s x) ++ xread [h] /\ xgiven [h] = [] /\ xrets [h] = []).
    { destruct Hh as [(-> & ->)|[(b & _ & -> & _ & ->)|(_ & -> & _ & ->)]]; cbn; rewrite ?app_nil_r;
        repeat split; auto; rewrite ?skipn_app, ?skipn_all, ?Nat.sub_diag; reflexivity. }
    destruct Et as (Et & _ & Er & Eg & Ex).
    destruct (sync_tls _ _ _ _ _ Et H2 Es) as (S1 & _ & S3).
    destruct S3 as (t' & S3 & S4 & S5); auto.
    { destruct He' as (F1 & F2). split; intro F; [apply F1|apply F2];
        change (h :: l0) with ([h] ++ l0); rewrite xrets_app, Ex; exact F. }
    exists t'. split; [exact S3|]. split; [exact S4|]. intro y.
    change (h :: l0) with ([h] ++ l0). rewrite !xread_app, !xgiven_app, S1, Eg, app_nil_r. cbn [app].
    rewrite <- !app_assoc, H3, <- S5, Er, <- !app_assoc. reflexivity.
  - apply Q; auto; destruct He0 as [->| ->]; reflexivity.
  - exists t. rewrite Hs, xread_app, xgiven_app. cbn [xread xgiven x_tls x_rbuf]. rewrite !app_nil_r. auto.
  - apply Q; auto; reflexivity.
  - apply Q; auto; destruct He0 as [->|[->|(? & ? & ->)]]; reflexivity.
Qed.

Lemma tinv_run : forall m acts x l, ready t0 ->
  xrun T M fuel (XState (stream_tls T t0) m FIdle) acts = (x, l) -> tinv x l.
Proof.
  intros m acts x l Hr. eapply (xrun_ind T M fuel tinv).
  - intros _ _. exists t0. cbn. auto.
  - intros. eapply xstep_tinv; eauto.
Qed.

(** Whenever the state is asked, it has got exactly the plaintext of all bytes read. *)
Theorem tls_fresh : forall m acts x l, ready t0 ->
  xrun T M fuel (XState (stream_tls T t0) m FIdle) acts = (x, l) ->
  forall l1 r l2, l = l1 ++ XNext r :: l2 -> no_error l1 -> xgiven l1 = dec t0 (xread l1).
Proof.
  intros m acts x l Hr E l1 r l2 Hl He.
  destruct (xrun_prefix _ _ _ _ _ _ _ E _ _ _ Hl) as (a1 & a & a2 & xa & xb & k1 & k2 & la & -> & Ea & Eb & ->).
  apply no_error_app in He as (He & _). apply tinv_run in Ea; auto.
  assert (Hx : x_f xa <> FDead).
  { intro F. rewrite (xstep_dead xa a F) in Eb. injection Eb as _ Eb. now destruct k1. }
  destruct (Ea He Hx) as (t & H1 & H2 & H3).
  destruct (step_next _ _ _ _ _ _ _ _ _ Eb) as (_ & _ & _ & h & k' & -> & Hh & _).
  apply xstep_log in Eb.
  inversion Eb as [Hs E0|l0 Hfl Hl1 Hl' Hg Hrb E0|h' l0 s1 Es Hh' E0|e He0 Hs ? E0|n ? ? Hs E0|rr ? Hs E0|e He0 Hs E0].
  - exfalso. subst. rewrite xnexts_app in Hl'. cbn in Hl'. now destruct (xnexts k').
  - subst h' l0. assert (Et : x_tls s1 = Some t /\ x_rbuf s1 = x_rbuf (x_s xa) ++ xread [h] /\ xgiven [h] = []).
    { destruct Hh' as [(-> & ->)|[(b & _ & -> & _ & ->)|(_ & -> & _ & ->)]]; cbn; rewrite ?app_nil_r; auto. }
    destruct Et as (Et & Er & Eg).
    destruct (sync_tls _ _ _ _ _ Et H2 Es) as (S1 & S2 & _). specialize (S2 _ _ _ eq_refl).
    rewrite xread_app in S1. apply app_eq_nil in S1 as [S1 _].
    change (h :: k') with ([h] ++ k'). rewrite !xread_app, !xgiven_app, Eg, S1, app_nil_r. cbn [app].
    rewrite H3, <- Er, S2. reflexivity.
  - exfalso. destruct k' as [|? [|? k']]; discriminate.
  - exfalso. now destruct k'.
  - exfalso. now destruct k'.
  - exfalso. now destruct k'.
Qed.
End Receive.
