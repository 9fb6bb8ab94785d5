(** At rest, responses are left in the queue of a server only after it has rejected a
    command. *)
From Coq Require Import List NArith Bool PeanoNat Lia.
From Verif Require Import Base Types Codec Handle Receive ServerSend ClientSend Client Server
  SpecFraming SpecClient SpecServer ReceiveProofs ClientAbs ServerAbs System SystemAbs SpecSystem
  SpecSystemLive SystemLog SystemResp SystemPos SystemServer SystemClient SystemThms
  Stream StreamMachine SpecStream Net SpecNet NetProofs NetSystem NetApp NetRest NetThms.
From Verif Require ClientInv ServerInv.
Import ListNotations.

(** While "+" is to be sent, or being sent, the server is within a command. *)
Definition within (a : ServerAbs.xstate) : Prop :=
  forall q, In (SmResponse None (RCcr q)) (ServerInv.pending (x_send a)) -> x_pre a <> [].

Lemma quiet_pending : forall s s1 m, quiet s = Some s1 -> In m (ServerInv.pending s1) -> In m (ServerInv.pending s).
Proof.
  intros s s1 m H Hm. destruct (ServerInv.quiet_inv _ _ H) as (E1 & E2 & _).
  unfold ServerInv.pending in *. rewrite E1, E2 in Hm. apply in_or_app. now right.
Qed.
Lemma quiet_internal : forall s s1 m, quiet s = Some s1 -> ServerInv.count_internal (ServerInv.pending s) <= 1 ->
  In m (ServerInv.pending s1) -> ServerInv.internal m = false.
Proof.
  intros s s1 m H One Hm. destruct (ServerInv.quiet_inv _ _ H) as (E1 & E2 & c & _ & _ & _ & N).
  specialize (N One). unfold ServerInv.pending in Hm. rewrite E1 in Hm. cbn in Hm.
  destruct (ServerInv.internal m) eqn:Em; [|reflexivity]. exfalso.
  assert (Hf : In m (filter ServerInv.internal (ss_queue s1))) by now apply filter_In.
  unfold ServerInv.count_internal in N. destruct (filter _ _); [contradiction|discriminate].
Qed.

Lemma pushed_pending : forall s ms m, In m (ServerInv.pending (ss_push s ms)) -> In m (ServerInv.pending s) \/ In m ms.
Proof.
  intros s ms m H. unfold ServerInv.pending, ss_push in *. cbn [ss_current ss_queue] in H.
  rewrite app_assoc in H. now apply in_app_or in H.
Qed.

Lemma within_step : forall K o a l a', ServerAbs.xstep K o a l a' ->
  ServerInv.count_internal (ServerInv.pending (x_send a)) <= 1 -> within a -> within a'.
Proof.
  intros K o a l a' H One W.
  destruct H as [a p a' e H|a m q H1 H2|a m e H1 H2|a s1 H1 H2|a s1 w ln rest i n H1 H2 H3 H4 H5 H6 H7 H8
    |a s1 raw rest v H1 H2 H3 H4|a s1 raw rest H1 H2 H3 H4 H5]; unfold within in *; intros q0 Hq.
  - assert (Q : forall r m a2 h, xenqueue a r m = (a2, h) ->
      In (SmResponse None (RCcr q0)) (ServerInv.pending (x_send a2)) -> x_pre a2 <> []).
    { intros r m a2 h E Hin. unfold xenqueue in E. destruct (hgen_generate (x_gen a)) as [g h0].
      injection E as <- <-. cbn [x_send x_pre] in *. apply (W q0). unfold ServerInv.pending, ss_enqueue in *.
      cbn [ss_current ss_queue] in Hin. rewrite app_assoc in Hin. apply in_app_or in Hin as [Hin|[Hin|[]]]; [exact Hin|discriminate]. }
    destruct p; cbn in H;
      repeat match type of H with
      | context [xenqueue ?x ?r ?m] => destruct (xenqueue x r m) eqn:?
      | context [match x_mode a with _ => _ end] => destruct (x_mode a)
      end; try discriminate; injection H as <- <-;
      first [exact (W q0 Hq)|eapply (Q _ _ _ _ eq_refl); exact Hq].
  - apply (W q0). unfold ServerInv.pending in *. cbn [x_set_send x_send ss_current ss_queue] in Hq.
    now rewrite H1, H2.
  - apply (W q0). unfold ServerInv.pending in *. cbn [x_set_send x_send ss_current ss_queue] in Hq.
    apply in_or_app. now right.
  - apply (W q0). eapply quiet_pending; eauto.
  - cbn [x_pre]. intro E. apply app_eq_nil in E as [_ ->].
    inversion H4 as [|n0 d l0 Hd Hl Ex Ey]; subst. destruct Hl as (b & -> & _). now destruct d, b.
  - cbn [x_start x_send] in Hq. apply pushed_pending in Hq as [Hq|Hq].
    + discriminate (quiet_internal _ _ _ H1 One Hq).
    + exfalso. destruct v; cbn in Hq; try contradiction. unfold when_sync in Hq.
      destruct (cl_mode _); [|contradiction]. now destruct Hq as [Hq|[]].
  - cbn [x_start x_send] in Hq. discriminate (quiet_internal _ _ _ H1 One Hq).
Qed.

Lemma within_steps : forall K o gs gr l a, xsteps K o (xnew gs gr) l a -> within a.
Proof.
  intros K o gs gr l a H. remember (xnew gs gr) as a0 eqn:E0. revert E0.
  induction H as [a|a l a1 l1 a2 H IH H1]; intros ->.
  - intros q [H|H]; [discriminate|contradiction].
  - eapply within_step; [exact H1| |auto]. apply (ServerInv.si_one K o gr l). exact (ServerInv.sinv_steps K o gs gr _ _ H).
Qed.

Section Stall.
Context (K : Codecs) (relaxed : bool) (o : soptions) (gc gs : hgen) (gr : greeting) (T1 T2 : tls).
Notation CM := (client_machine K).
Notation SM := (server_machine K).
Context (z : net T1 T2 CM SM) (L : list (nlog CM SM)).
Hypothesis Talk : @talk K relaxed o gc gs gr T1 T2 z L.
Hypothesis Ord : orderly K relaxed o gr (app_log L).
Hypothesis Own : own_roundtrips K relaxed o (app_log L).
Hypothesis Rest : at_rest z.

(** If nothing was rejected, all responses were sent. *)
Lemma rest_told : flat_map (rejection K o) (requests (clogs (app_log L))) = [] ->
  told_sent (slogs (app_log L)) = given (rights L).
Proof.
  intro NR.
  destruct (talk_rest _ _ _ _ _ _ _ _ _ _ Talk Rest Ord Own) as (acts & y & l & Y & W & O & E1 & E2).
  destruct (proj1 (proj2 (proj2 W))) as [c Wc].
  destruct (waiting_rest K relaxed o gc gs gr acts y l Y O c W Wc) as (a & x & rd & items & pre1 & G & R & cs & St).
  destruct (rest_read K relaxed o gc gs gr y l O _ _ _ _ _ _ _ _ _ St) as [-> ->].
  pose proof (re_steps _ _ _ _ _ _ _ _ _ _ _ _ _ _ _ _ _ St) as Zs.
  pose proof (zsteps_xsteps K relaxed o _ _ _ Zs) as Xs. cbn [z_x znew] in Xs.
  pose proof (ServerInv.sinv_steps K o gs gr _ _ Xs) as I1. pose proof (within_steps _ _ _ _ _ _ Xs) as Wi.
  pose proof (j_pos _ _ _ _ _ _ _ _ _ _ _ _ _ (re_jinv _ _ _ _ _ _ _ _ _ _ _ _ _ _ _ _ _ St)) as [P1 P2 _ _ _].
  rewrite slogs_client in *. cbn in P1. symmetry in P1. apply app_eq_nil in P1 as [-> _]. cbn in P2.
  destruct (ServerInv.si_queue _ _ _ _ _ I1) as (dn & D1 & _ & D3).
  rewrite (seen_told K L l E2), <- (seen_given K L l E2), <- (app_scheduled o gr), D1.
  unfold app_part. rewrite flat_map_app. fold (app_part dn).
  unfold told_sent. rewrite told_events, D3, told_parts.
  assert (Pd : ServerInv.pending (x_send x) = []).
  { pose proof (re_quiet _ _ _ _ _ _ _ _ _ _ _ _ _ _ _ _ _ St) as Q. unfold quiet in Q.
    unfold ServerInv.pending. destruct (ss_current (x_send x)) as [[g|[h|] r]|] eqn:Ec; try (exfalso; now apply Q).
    - exfalso.
      assert (Hin : In (SmResponse None r) (ServerInv.pending (x_send x))) by (unfold ServerInv.pending; rewrite Ec; now left).
      destruct r as [d|s|q]; [..|exact (Wi q Hin P2)].
      all: match type of Hin with In (SmResponse None ?r) _ => assert (Hr : In r (own_part (scheduled o gr (slogs l)))) end;
        [unfold own_part; apply in_flat_map; eexists; split; [rewrite D1; apply in_or_app; right; exact Hin|now left]|].
      all: rewrite (own_scheduled K o gr _ _ (read_all K relaxed o gc gs gr acts y l Y O W)) in Hr;
        rewrite (seen_requests K L l E1) in NR; rewrite NR in Hr; contradiction.
    - destruct (ss_queue (x_send x)); [reflexivity|exfalso; now apply Q]. }
  rewrite Pd. cbn. now rewrite app_nil_r.
Qed.
End Stall.
