(** Proofs about runs of the stream without TLS (some hold with TLS, too). *)
From Coq Require Import List NArith Bool PeanoNat Lia.
From Verif Require Import Base Stream SpecStream StreamProofs.
Import ListNotations.

Section Thms.
Context (T : tls) (M : machine) (fuel : nat).
Notation xst := (xstate T M).
Implicit Types l : list (xlog M).

(** Where the future waits. *)
Definition awaits (x : xst) : Prop :=
  match x_f x with
  | FRead | FFlushTcp => x_wbuf (x_s x) = []
  | FSelect | FFlushWrite => x_wbuf (x_s x) <> []
  | _ => True
  end.

Lemma next_await_ok : forall s m, awaits (XState s m (next_await T s)).
Proof. intros s m. unfold awaits, next_await. cbn. destruct (x_wbuf s); [reflexivity|discriminate]. Qed.

Lemma flush_await_ok : forall s m, awaits (XState s m (flush_await T s)).
Proof. intros s m. unfold awaits, flush_await. cbn. destruct (x_wbuf s); [reflexivity|discriminate]. Qed.

Lemma fail_awaits : forall (s : stream T) (m : m_st M) l r x' l',
  fail T M s m l r = (x', l') -> awaits x'.
Proof. intros s m l r x' l' E. apply fail_log in E as (_ & _ & _ & _ & _ & [F|F]); unfold awaits; now rewrite F. Qed.

Lemma sync_awaits : forall s m x' l', sync T M fuel s m = (x', l') -> awaits x'.
Proof.
  intros s m x' l' E. unfold sync in E.
  destruct (sync_input T M fuel s m) as [[[s1 m1] l1] r1]. destruct m1 as [m1|]; [|now injection E as <- <-].
  destruct r1 as [r1|]; [now apply fail_awaits in E|].
  destruct (m_next M m1) as [[m2 r]|]; [|now injection E as <- <-].
  destruct r as [e| |b|e]; try (injection E as <- <-; exact I).
  - destruct (sync_output T fuel s1 []) as [s2 [e|]]; [now apply fail_awaits in E|].
    injection E as <- <-. apply next_await_ok.
  - destruct (sync_output T fuel s1 b) as [s2 [e|]]; [now apply fail_awaits in E|].
    injection E as <- <-. apply next_await_ok.
Qed.

Lemma xstep_awaits : forall x a x' l', awaits x -> xstep T M fuel x a = (x', l') -> awaits x'.
Proof.
  intros x a x' l' H E. destruct a as [| |r|r|ok| |o]; cbn [xstep] in E.
  - destruct (x_f x); try (injection E as <- <-; exact H).
    destruct (sync T M fuel (x_s x) (x_m x)) as [y k] eqn:E1. injection E as <- <-.
    eapply sync_awaits; eauto.
  - destruct (x_f x); try (injection E as <- <-; exact H).
    destruct (start_flush T M fuel (x_s x) (x_m x)) as [y k] eqn:E1. injection E as <- <-.
    unfold start_flush in E1. destruct (x_tls (x_s x)) as [t|].
    + destruct (t_flush T t) as [t1|].
      * destruct (sync_output T fuel _ []) as [s2 [e|]]; [now apply fail_awaits in E1|].
        injection E1 as <- <-. apply flush_await_ok.
      * now apply fail_awaits in E1.
    + injection E1 as <- <-. apply flush_await_ok.
  - destruct (reading (x_f x)); [|injection E as <- <-; exact H].
    destruct r as [[|b r]|]; try (injection E as <- <-; exact I).
    destruct (sync T M fuel _ (x_m x)) as [y k] eqn:E1. injection E as <- <-.
    eapply sync_awaits; eauto.
  - destruct (writing (x_f x)) eqn:Wr; [|injection E as <- <-; exact H].
    destruct r as [[|n]|]; try (injection E as <- <-; exact I).
    destruct (Nat.leb (S n) (length (x_wbuf (x_s x)))); [|injection E as <- <-; exact H].
    cbn [x_wbuf] in E. destruct (skipn (S n) (x_wbuf (x_s x))) as [|y w] eqn:W.
    + destruct (x_f x) eqn:F; try (injection E as <- <-; reflexivity).
      destruct (sync T M fuel _ (x_m x)) as [z k] eqn:E1. injection E as <- <-.
      eapply sync_awaits; eauto.
    + injection E as <- <-. unfold awaits. cbn. destruct (x_f x); try discriminate Wr; discriminate.
  - destruct (x_f x); try (injection E as <- <-; exact H). injection E as <- <-. exact I.
  - destruct (pending (x_f x)); injection E as <- <-; [exact I|exact H].
  - destruct (x_f x); try (injection E as <- <-; exact H).
    destruct (m_call M (x_m x) o) as [[m1 r]|]; injection E as <- <-; exact I.
Qed.

Definition inv (x : xst) l : Prop := conserved T M x l /\ awaits x.

Lemma inv_run : forall m acts x l,
  xrun T M fuel (XState (stream_insecure T) m FIdle) acts = (x, l) -> inv x l.
Proof.
  intros m acts. eapply (xrun_ind T M fuel inv).
  - split; [repeat split|exact I].
  - intros x l a x' l' (H1 & H2) E. split; [eapply xstep_conserved|eapply xstep_awaits]; eauto.
Qed.

(** While [next] waits only for input, everything has been written. *)
Theorem plain_waiting : forall m acts x l,
  xrun T M fuel (XState (stream_insecure T) m FIdle) acts = (x, l) ->
  x_f x = FRead -> xwritten l = xoutputs l.
Proof.
  intros m acts x l E F. apply inv_run in E as ((_ & H & _) & H2). unfold awaits in H2.
  rewrite F in H2. now rewrite H2, app_nil_r in H.
Qed.

Lemma xrun_prefix : forall acts (x0 : xst) x l, xrun T M fuel x0 acts = (x, l) ->
  forall l1 e l2, l = l1 ++ e :: l2 ->
  exists acts1 a acts2 xa xb k1 k2 la, acts = acts1 ++ a :: acts2 /\
    xrun T M fuel x0 acts1 = (xa, la) /\ xstep T M fuel xa a = (xb, k1 ++ e :: k2) /\
    l1 = la ++ k1.
Proof.
  induction acts as [|a acts IH]; intros x0 x l E l1 e l2 Hl; cbn [xrun] in E.
  - injection E as <- <-. now destruct l1.
  - destruct (xstep T M fuel x0 a) as [x1 m1] eqn:E1.
    destruct (xrun T M fuel x1 acts) as [x2 m2] eqn:E2. injection E as <- <-.
    apply app_cons_split in Hl as [(k & -> & ->)|(k & -> & ->)].
    + exists [], a, acts, x0, x1, l1, k, []. auto.
    + destruct (IH x1 x2 _ E2 k e l2 eq_refl) as (a1 & b & a2 & xa & xb & k1 & k2 & la & -> & Ea & Eb & ->).
      exists (a :: a1), b, a2, xa, xb, k1, k2, (m1 ++ la). repeat split; auto.
      * cbn [xrun]. now rewrite E1, Ea.
      * apply app_assoc.
Qed.

(** The state is asked for the next step only when it has got everything that was read. *)
Theorem plain_fresh : forall m acts x l,
  xrun T M fuel (XState (stream_insecure T) m FIdle) acts = (x, l) ->
  forall l1 r l2, l = l1 ++ XNext r :: l2 -> xread l1 = xgiven l1.
Proof.
  intros m acts x l E l1 r l2 Hl.
  destruct (xrun_prefix _ _ _ _ E _ _ _ Hl) as (a1 & a & a2 & xa & xb & k1 & k2 & la & -> & Ea & Eb & ->).
  apply inv_run in Ea as (C & _). pose proof (xstep_conserved _ _ _ _ _ _ _ _ C Eb) as (_ & _ & C3).
  destruct (step_next _ _ _ _ _ _ _ _ _ Eb) as (N1 & N2 & N3 & h & k' & -> & Hh & s1 & Es & Ht).
  destruct C as (C & _). rewrite C in Ht.
  pose proof (sync_entries _ _ _ _ _ _ _ Es) as Fe.
  pose proof (sync_plain _ _ _ _ _ _ _ Ht Es) as (_ & _ & _ & R2 & _ & F).
  rewrite (F r), app_nil_r in C3 by (apply in_or_app; right; now left).
  rewrite xread_app in R2. apply app_eq_nil in R2 as [_ R2]. cbn in R2.
  rewrite !xread_app, !xgiven_app in C3.
  change (xread (XNext r :: k2)) with (xread k2) in C3.
  change (xgiven (XNext r :: k2)) with (xgiven k2) in C3.
  rewrite xread_app, xgiven_app. rewrite R2, N3, !app_nil_r in C3. exact C3.
Qed.

(** Between two calls of [State::next] by the same future something was read, or everything
    was written. *)
Theorem plain_no_spin : forall m acts x l,
  xrun T M fuel (XState (stream_insecure T) m FIdle) acts = (x, l) ->
  forall l1 r1 lm r2 l2, l = l1 ++ XNext r1 :: lm ++ XNext r2 :: l2 -> xnexts lm = [] ->
  (exists e, In e lm /\ is_boundary e = true) \/
  (exists b, b <> [] /\ In (XRead b) lm) \/
  (exists la b lb, lm = la ++ XWrote b :: lb /\ b <> [] /\
     xwritten (l1 ++ XNext r1 :: la ++ [XWrote b]) = xoutputs (l1 ++ [XNext r1])).
Proof.
  intros m acts x l E l1 r1 lm r2 l2 Hl Hm.
  assert (Hl' : l = (l1 ++ XNext r1 :: lm) ++ XNext r2 :: l2) by now rewrite Hl, <- app_assoc.
  destruct (xrun_prefix _ _ _ _ E _ _ _ Hl') as (a1 & a & a2 & xa & xb & k1 & k2 & la & -> & Ea & Eb & Hk).
  apply inv_run in Ea as ((_ & C & _) & _).
  destruct (step_next _ _ _ _ _ _ _ _ _ Eb) as (N1 & N2 & _ & h & k' & -> & Hh & _).
  symmetry in Hk. apply app_cons_split in Hk as [(k & E3 & E4)|(k & E3 & E4)].
  2:{ exfalso. destruct k as [|e0 k]; cbn in E4; injection E4 as E5 E6.
      - subst. destruct Hh as [F|[(b & _ & F)|(_ & F)]]; discriminate F.
      - subst. destruct e0; cbn in N1; try discriminate N1; rewrite xnexts_app in N1; cbn in N1; now destruct (xnexts k). }
  subst la lm. destruct Hh as [->|[(b & Hb & ->)|(Hw & ->)]].
  - left. exists XStartNext. split; [|reflexivity]. apply in_or_app. right. now left.
  - right. left. exists b. split; [exact Hb|]. apply in_or_app. right. now left.
  - right. right. exists k, (x_wbuf (x_s xa)), k'. repeat split; auto.
    assert (O : xoutputs k = []).
    { rewrite xnexts_app in Hm. apply app_eq_nil in Hm as [Hm _]. clear -Hm.
      induction k as [|e k IH]; [reflexivity|]. destruct e; cbn in *; auto. discriminate. }
    replace (l1 ++ XNext r1 :: k ++ [XWrote (x_wbuf (x_s xa))])
      with ((l1 ++ XNext r1 :: k) ++ [XWrote (x_wbuf (x_s xa))]) by now rewrite <- app_assoc.
    rewrite xwritten_app. cbn [xwritten]. rewrite app_nil_r, C.
    replace (l1 ++ XNext r1 :: k) with ((l1 ++ [XNext r1]) ++ k) by now rewrite <- app_assoc.
    now rewrite xoutputs_app, O, app_nil_r.
Qed.

(** End of file, and a socket that accepts nothing, end the future; nothing else does so
    with [Closed]. *)
Theorem closed_reported : forall (x0 : xst) acts x l,
  xrun T M fuel x0 acts = (x, l) ->
  forall l1 e l2, l = l1 ++ e :: l2 -> e = XRead [] \/ e = XWrote [] ->
  exists l3, l2 = XRet RetClosed :: l3.
Proof.
  intros x0 acts x l E.
  assert (G : forall l1 e l2, l = l1 ++ e :: l2 -> e = XRead [] \/ e = XWrote [] ->
    exists l3, l2 = XRet RetClosed :: l3); [|exact G].
  revert x0 x l E. induction acts as [|a acts IH]; intros x0 x l E l1 e l2 Hl He; cbn [xrun] in E.
  - injection E as <- <-. now destruct l1.
  - destruct (xstep T M fuel x0 a) as [x1 m1] eqn:E1.
    destruct (xrun T M fuel x1 acts) as [x2 m2] eqn:E2. injection E as <- <-.
    apply app_cons_split in Hl as [(k & -> & ->)|(k & -> & ->)].
    2:{ eapply IH; eauto. }
    apply xstep_log in E1.
    assert (Z : forall l, Forall (iter_entry M) l -> ~ In e l).
    { intros l F Hin. rewrite Forall_forall in F. apply F in Hin.
      destruct He as [->| ->]; exact Hin. }
    inversion E1 as [ Hs E0|l0 ? Hl0 ? ? ? E0|h l0 s1 Es Hh E0|e0 He0 ? ? E0|n Hn Hn' ? E0|rr ? ? E0|e0 He0 ? E0].
    + now destruct l1.
    + exfalso. destruct l1 as [|e1 l1]; cbn in E0; injection E0 as E3 E4.
      * subst e. destruct He; discriminate.
      * apply (Z _ Hl0). subst l0. apply in_or_app. right. now left.
    + exfalso. destruct l1 as [|e1 l1]; cbn in E0; injection E0 as E3 E4.
      * subst h. destruct Hh as [(F & _)|[(b & Hb & F & _)|(Hw & F & _)]]; subst e.
        -- destruct He; discriminate.
        -- destruct He as [F|F]; [injection F as ->; now contradiction Hb|discriminate].
        -- destruct He as [F|F]; [discriminate|injection F as F; congruence].
      * apply sync_entries in Es. apply (Z _ Es). subst l0. apply in_or_app. right. now left.
    + destruct l1 as [|e1 [|e2 l1]]; cbn in E0; injection E0; intros; subst.
      * now exists m2.
      * destruct He; discriminate.
      * destruct l1; discriminate.
    + exfalso. destruct l1 as [|e1 l1]; cbn in E0; injection E0; intros; [subst|now destruct l1].
      destruct He as [F|F]; [discriminate|]. injection F as F.
      apply (f_equal (@length byte)) in F. rewrite firstn_length in F. cbn in F. lia.
    + exfalso. destruct l1 as [|e1 l1]; cbn in E0; injection E0; intros; [subst|now destruct l1].
      destruct He; discriminate.
    + exfalso. destruct l1 as [|e1 l1]; cbn in E0; injection E0; intros; [subst|now destruct l1].
      destruct He as [F|F]; subst; destruct He0 as [F|[F|(? & ? & F)]]; discriminate.
Qed.

Theorem closed_cause : forall (x0 : xst) acts x l,
  xrun T M fuel x0 acts = (x, l) ->
  forall l1 l2, l = l1 ++ XRet RetClosed :: l2 ->
  exists l0 e, l1 = l0 ++ [e] /\ (e = XRead [] \/ e = XWrote []).
Proof.
  intros x0 acts x l E l1 l2 Hl.
  destruct (xrun_prefix _ _ _ _ E _ _ _ Hl) as (a1 & a & a2 & xa & xb & k1 & k2 & la & -> & Ea & Eb & ->).
  apply xstep_log in Eb.
  assert (Z : forall k k2, ~ Forall (iter_entry M) (k ++ XRet RetClosed :: k2)).
  { intros k q F. apply Forall_app in F as [_ F]. inversion F as [|? ? F1]. destruct F1 as [F1 _]. now apply F1. }
  inversion Eb as [ Hs E0|l0 ? Hl0 ? ? ? E0|h l0 s1 Es Hh E0|e0 He0 ? ? E0|n Hn Hn' ? E0|rr Hr ? E0|e0 He0 ? E0].
  - now destruct k1.
  - exfalso. destruct k1 as [|e1 k1]; cbn in E0; injection E0 as E3 E4; [discriminate|]. subst l0. now apply Z in Hl0.
  - exfalso. destruct k1 as [|e1 k1]; cbn in E0; injection E0 as E3 E4.
    + subst h. destruct Hh as [(F & _)|[(b & Hb & F & _)|(Hw & F & _)]]; discriminate.
    + apply sync_entries in Es. subst l0. now apply Z in Es.
  - destruct k1 as [|e1 [|e2 k1]]; cbn in E0; injection E0; intros; subst.
    + destruct He0; discriminate.
    + now exists la, e1.
    + now destruct k1.
  - exfalso. destruct k1 as [|e1 k1]; cbn in E0; injection E0; intros; [discriminate|now destruct k1].
  - exfalso. destruct k1 as [|e1 k1]; cbn in E0; injection E0; intros; [subst|now destruct k1].
    destruct Hr as [F|(F & _)]; discriminate.
  - exfalso. destruct k1 as [|e1 k1]; cbn in E0; injection E0; intros; [subst|now destruct k1].
    destruct He0 as [F|[F|(? & ? & F)]]; discriminate.
Qed.

Theorem plain_flushed : forall m acts x l,
  xrun T M fuel (XState (stream_insecure T) m FIdle) acts = (x, l) ->
  forall l1 l2, l = l1 ++ XRet RetFlushed :: l2 -> xwritten l1 = xoutputs l1.
Proof.
  intros m acts x l E l1 l2 Hl.
  destruct (xrun_prefix _ _ _ _ E _ _ _ Hl) as (a1 & a & a2 & xa & xb & k1 & k2 & la & -> & Ea & Eb & ->).
  apply inv_run in Ea as ((_ & C & _) & W). apply xstep_log in Eb.
  assert (Z : forall k k2, ~ Forall (iter_entry M) (k ++ XRet RetFlushed :: k2)).
  { intros k q F. apply Forall_app in F as [_ F]. inversion F as [|? ? F1]. destruct F1 as [_ F1]. now apply F1. }
  inversion Eb as [ Hs E0|l0 ? Hl0 ? ? ? E0|h l0 s1 Es Hh E0|e0 He0 ? ? E0|n Hn Hn' ? E0|rr Hr ? E0|e0 He0 ? E0].
  - now destruct k1.
  - exfalso. destruct k1 as [|e1 k1]; cbn in E0; injection E0 as E3 E4; [discriminate|]. subst l0. now apply Z in Hl0.
  - exfalso. destruct k1 as [|e1 k1]; cbn in E0; injection E0 as E3 E4.
    + subst h. destruct Hh as [(F & _)|[(b & Hb & F & _)|(Hw & F & _)]]; discriminate.
    + apply sync_entries in Es. subst l0. now apply Z in Es.
  - exfalso. destruct k1 as [|e1 [|e2 k1]]; cbn in E0; injection E0; intros; subst; try discriminate.
    + destruct He0; discriminate.
    + now destruct k1.
  - exfalso. destruct k1 as [|e1 k1]; cbn in E0; injection E0; intros; [discriminate|now destruct k1].
  - destruct k1 as [|e1 k1]; cbn in E0; injection E0; intros; [subst|now destruct k1].
    destruct Hr as [F|(_ & F)]; [discriminate|]. unfold awaits in W. rewrite F in W.
    rewrite W, app_nil_r in C. now rewrite app_nil_r.
  - exfalso. destruct k1 as [|e1 k1]; cbn in E0; injection E0; intros; [subst|now destruct k1].
    destruct He0 as [F|[F|(? & ? & F)]]; discriminate.
Qed.
End Thms.
