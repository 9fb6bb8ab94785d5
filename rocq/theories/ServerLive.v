(** Termination and absence of panics of the server. *)
From Coq Require Import List NArith Bool PeanoNat Lia ZifyBool ZifyNat ZifyN.
From Verif Require Import Base Types Codec Handle Receive ServerSend Server SpecFraming
  SpecClient SpecServer ReceiveProofs ClientRecv ServerRecv ServerAbs ServerInv ServerProps.
Import ListNotations.

Definition swork_send (s : ssend) : nat :=
  2 * length (ss_queue s) + length (opt_list (ss_current s)).

Definition swork (a : xstate) : nat :=
  swork_send (x_send a) + 3 * length (x_buf a) + 3 * length (x_rest a).

Lemma quiet_work : forall s s1, quiet s = Some s1 -> swork_send s1 <= swork_send s.
Proof.
  intros s s1 H. unfold quiet in H. unfold swork_send.
  destruct (ss_current s) as [[g|[h|] r]|] eqn:Ec; try discriminate.
  - injection H as <-. cbn. lia.
  - destruct (ss_queue s) eqn:Eq; [|discriminate]. injection H as <-.
    rewrite Ec, Eq. cbn. lia.
Qed.

Lemma push_work : forall s ms, swork_send (ss_push s ms) = swork_send s + 2 * length ms.
Proof. intros. unfold swork_send, ss_push. cbn [ss_queue ss_current]. rewrite app_length. lia. Qed.

Lemma when_sync_length : forall i m, length (when_sync i m) <= 1.
Proof. intros i m. unfold when_sync. destruct (cl_mode i); cbn; lia. Qed.

Section Live.
  Variable K : Codecs.
  Variable o : soptions.

  Notation xstep := (xstep K o).
  Notation xsteps := (xsteps K o).
  Notation xnext := (xnext K o).
  Notation srel := (srel K o).
  Notation xwf := (xwf K o).

  (** A frame contains what was opened and more. *)
  Lemma frame_pre : forall a raw rest v, xwf a -> x_buf a = raw ++ rest ->
    sframe K o (x_mode a) raw (x_lits a) v ->
    exists w, raw = x_pre a ++ w /\ w <> [] /\ x_rest a = w ++ rest.
  Proof.
    intros a raw rest v (_ & Hop) Hbuf Hfr.
    assert (X : forall M L (dec : bytes -> dec_result M L) acc out ls,
      opened dec (so_crlf_relaxed o) acc (x_pre a) ls (x_need a) ->
      framed dec (so_crlf_relaxed o) acc raw ls out ->
      exists w, raw = x_pre a ++ w /\ w <> [] /\ x_rest a = w ++ rest).
    { intros M L dec acc out ls Ho Hf.
      destruct (opened_continues dec (so_crlf_relaxed o) acc _ _ _ _ _ _ rest (x_rest a) Ho Hf)
        as (w & ls2 & E & _ & Hs).
      { rewrite <- Hbuf. reflexivity. }
      exists w. split; [exact E|]. split.
      - intros ->. apply scan_from_first in Hs as (w1 & l & r & Hfl & E2).
        inversion Hfl as [|n0 d0 l1 Hd0 Hl1]; subst. apply is_line_nonempty in Hl1.
        apply (f_equal (@length byte)) in E2. rewrite !app_length in E2. cbn in E2. lia.
      - unfold x_buf in Hbuf. rewrite E, <- app_assoc in Hbuf. now apply app_inv_head in Hbuf. }
    destruct (x_mode a) eqn:Em; cbn in Hfr.
    - destruct v; try contradiction; eapply X; eauto.
    - destruct Hop as (P & L & N). destruct Hfr as (_ & Hfr).
      destruct v; try contradiction; (eapply X; [|exact Hfr]); rewrite P, N; constructor.
    - contradiction.
    - destruct Hop as (P & L & N). destruct Hfr as (_ & Hfr).
      destruct v; try contradiction; (eapply X; [|exact Hfr]); rewrite P, N; constructor.
  Qed.

  Hypothesis Hmax : (0 < so_max_command_size o)%N.

  Lemma xstep_work : forall a l a', xwf a -> xstep a l a' ->
    (forall e, l = [e] -> (exists r, e = SlNext r) \/ (exists x, e = SlRx x)) ->
    l <> [SlNext INeedMore] ->
    swork a' < swork a.
  Proof.
    intros a l a' Hwf H Hc Hn.
    destruct H as [a p a' e H|a m q Hcu Hqu|a m e Hcu He|a s1 Hs Hcond
      |a s1 w ln rest i n Hs Hmode Hrest Hfl Hfit Hok Hd Ha
      |a s1 raw rest v Hs Hbuf Hfr Hfit
      |a s1 raw rest Hs Hmode Hno Hbuf Hraw].
    - exfalso. destruct (xcall_label _ _ _ _ H) as [H1 H2].
      destruct (Hc e eq_refl) as [(r & E)|(x & E)]; [now apply H1 in E|now apply H2 in E].
    - unfold swork, x_buf, swork_send. cbn. rewrite Hcu, Hqu. cbn. lia.
    - unfold swork, x_buf, swork_send. cbn. rewrite Hcu. cbn. lia.
    - congruence.
    - apply quiet_work in Hs. unfold swork. cbn [x_send x_rest x_buf x_pre].
      rewrite push_work. unfold x_buf. cbn [x_pre x_rest].
      pose proof (when_sync_length i (SmResponse None (accept_response o i))) as H1.
      assert (1 <= length w).
      { inversion Hfl as [|n0 d0 l1 Hd0 Hl1]; subst. rewrite app_length.
        apply is_line_nonempty in Hl1. lia. }
      rewrite Hrest, !app_length. lia.
    - destruct (frame_pre a raw rest v Hwf Hbuf Hfr) as (w & Ew & Hw & Er).
      apply quiet_work in Hs. unfold swork, x_start. cbn [x_send x_rest x_buf x_pre].
      rewrite push_work. rewrite Er. unfold x_buf. cbn [x_pre x_rest app]. rewrite Er.
      assert (length (pushed_by o v) <= 1).
      { destruct v; cbn; try lia. apply when_sync_length. }
      destruct w; [congruence|]. rewrite !app_length. cbn [length]. lia.
    - apply quiet_work in Hs. unfold swork, x_start. cbn [x_send x_rest x_buf x_pre].
      unfold x_buf at 1. cbn [x_pre x_rest app]. rewrite Hbuf, !app_length.
      destruct Hwf as (Hlen & _).
      apply (f_equal (@length byte)) in Hbuf. unfold x_buf in Hbuf. rewrite !app_length in Hbuf.
      lia.
  Qed.

  Lemma xnext_work : forall a g r a', xwf a -> xnext a g r a' ->
    r <> INeedMore -> r <> IPanic -> swork a' < swork a.
  Proof.
    intros a g r a' Hwf H Hr Hp. induction H as [a g r a' H|a i a1 g r a' H H2 IH|a a' H];
      [..|congruence].
    - eapply xstep_work; eauto.
      + intros e E. destruct g as [|x g]; cbn in E; [injection E as <-; eauto|].
        destruct g; discriminate.
      + destruct g as [|x g]; cbn; [congruence|]. destruct g; discriminate.
    - assert (swork a1 < swork a).
      { eapply xstep_work; eauto; [|discriminate]. intros e E. injection E as <-. eauto. }
      pose proof (xstep_wf K o _ _ _ Hwf H) as Hwf1. specialize (IH Hwf1 Hr Hp). lia.
  Qed.

  Lemma snexts_bounded : forall n s a s' l, srel s a ->
    server_run K s (repeat SopNext n) = (Some s', l) ->
    ~ In (SlNext INeedMore) l -> n <= swork a.
  Proof.
    induction n as [|n IH]; intros s a s' l R H Hin; [lia|].
    cbn [repeat server_run server_step] in H.
    destruct (server_next K s) as [[s1 g] r] eqn:E.
    destruct (server_next_sim K o s a s1 g r R E) as (a1 & N & _ & _ & R1).
    destruct (s_is_panic r) eqn:Ep; [discriminate|].
    assert (Hp : r <> IPanic) by (intros ->; discriminate).
    destruct (server_run K s1 (repeat SopNext n)) as [s2 l2] eqn:E2.
    injection H as -> <-.
    assert (Hr : r <> INeedMore).
    { intros ->. apply Hin. apply in_or_app. left. apply in_or_app. right. cbn. auto. }
    assert (swork a1 < swork a).
    { eapply xnext_work; eauto. apply R. }
    enough (n <= swork a1) by lia. eapply IH; eauto.
    intro X. apply Hin. apply in_or_app. auto.
  Qed.
End Live.

Section Panics.
  Variable K : Codecs.
  Variable o : soptions.
  Notation xnext := (xnext K o).
  Notation srel := (srel K o).

  Lemma xnext_no_panic : sno_trailing K o -> forall a g r a', xnext a g r a' -> r <> IPanic.
  Proof.
    intros (T1 & T2 & T3) a g r a' H.
    induction H as [a g r a' H|a i a1 g r a' H H2 IH|a a' H]; auto.
    - intros ->. remember (map SlRx g ++ [SlNext IPanic]) as lb eqn:EL in H.
      destruct H; destruct g as [|x [|y g]]; cbn in EL; try discriminate.
      + apply xcall_label in H as [H _]. injection EL as EL. now apply H in EL.
      + injection EL as _ EL. destruct v; discriminate.
    - exfalso. destruct H as (s1 & raw & rest & _ & _ & _ & H).
      destruct (x_mode a); [| |contradiction|]; destruct H as (m & H);
        [eapply T1|eapply T2|eapply T3]; eauto.
  Qed.

  Lemma server_run_no_panic : sno_trailing K o -> forall ops s a, srel s a ->
    fst (server_run K s ops) <> None.
  Proof.
    intros T. induction ops as [|p ops IH]; intros s a R; [discriminate|].
    cbn [server_run].
    assert (S : exists s' l, server_step K s p = (Some s', l)).
    { destruct (match p with SopNext => true | _ => false end) eqn:Ep.
      - destruct p; try discriminate. cbn [server_step].
        destruct (server_next K s) as [[s1 g] r] eqn:E.
        destruct (server_next_sim K o s a s1 g r R E) as (a1 & N & _ & _ & R1).
        pose proof (xnext_no_panic T _ _ _ _ N) as Hp.
        destruct r; cbn; eauto. congruence.
      - eapply server_call_ok; eauto. intros ->. discriminate. }
    destruct S as (s' & l & S). rewrite S.
    destruct (server_step_sim K o s a p s' l R S) as (a' & _ & R').
    specialize (IH s' a' R'). destruct (server_run K s' ops). exact IH.
  Qed.
End Panics.
