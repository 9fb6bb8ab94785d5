(** The way from the server to the client. *)
From Coq Require Import List NArith Bool PeanoNat Lia.
From Verif Require Import Base Types Codec Handle Receive ServerSend ClientSend Client Server
  SpecFraming SpecClient SpecServer ReceiveProofs ClientRecv ServerRecv ClientAbs ServerAbs
  ServerInv System SystemAbs SpecSystem.
From Verif Require ClientInv ClientThms.
Import ListNotations.

Section Resp.
  Variable K : Codecs.
  Variable relaxed : bool.
  Variable o : soptions.
  Variable gc gs : hgen.
  Variable gr : greeting.

  Notation zsteps := (zsteps K relaxed o).
  Notation sched := (scheduled o gr).
  Notation mbytes := (smsg_bytes K).

  Lemma sent_spec : forall l x, sinv K o gr l x ->
    souts l = map mbytes (sent o gr l) /\ sched l = sent o gr l ++ ss_queue (x_send x).
  Proof.
    intros l x I. destruct (si_queue _ _ _ _ _ I) as (dn & D1 & D2 & _).
    unfold sent. rewrite D1, D2, map_length. unfold pending. rewrite app_assoc.
    rewrite firstn_app, firstn_all, Nat.sub_diag. cbn [firstn]. rewrite app_nil_r. auto.
  Qed.

  (** What was output is extended by what is output. *)
  Lemma sent_grows : forall l x l1 x1, sinv K o gr l x -> sinv K o gr (l ++ l1) x1 ->
    exists e, sent o gr (l ++ l1) = sent o gr l ++ e /\ soutputs l1 = concat (map mbytes e).
  Proof.
    intros l x l1 x1 I I1. destruct (sent_spec _ _ I) as [A1 A2].
    destruct (sent_spec _ _ I1) as [B1 B2].
    assert (E : exists e, sent o gr (l ++ l1) = sent o gr l ++ e).
    { exists (skipn (length (sent o gr l)) (sent o gr (l ++ l1))).
      assert (P : firstn (length (sent o gr l)) (sent o gr (l ++ l1)) = sent o gr l).
      { assert (Hl : length (sent o gr l) = length (souts l)) by now rewrite A1, map_length.
        rewrite Hl. unfold sent at 1. rewrite firstn_firstn, souts_app, app_length.
        rewrite Nat.min_l by lia. rewrite scheduled_app, firstn_app.
        assert (Hle : length (souts l) <= length (sched l)).
        { rewrite A2, app_length. lia. }
        replace (length (souts l) - length (sched l)) with 0 by lia.
        cbn [firstn]. now rewrite app_nil_r. }
      rewrite <- P at 1. now rewrite firstn_skipn. }
    destruct E as [e E]. exists e. split; [exact E|].
    rewrite souts_app, E, map_app, A1 in B1. apply app_inv_head in B1.
    unfold soutputs. now rewrite B1.
  Qed.

  Definition respinv (l : list ylog) (z : zstate) : Prop :=
    exists F0 F1, F0 ++ F1 = sent o gr (slogs l) /\
      received (clogs l) = map msg_verdict F0 /\
      a_buf (z_a z) ++ z_toC z = concat (map mbytes F1) /\
      (a_greeted (z_a z) = true <-> F0 <> []).

  Lemma received_app : forall a b, received (a ++ b) = received a ++ received b.
  Proof. intros. unfold received. now rewrite ClientInv.taken_app, map_app. Qed.

  (** Which messages are output: first the greeting, then responses. *)
  Lemma sent_shape : forall l F0 m F1, F0 ++ m :: F1 = sent o gr l ->
    match m with SmGreeting g => F0 = [] /\ g = gr | SmResponse _ _ => F0 <> [] end.
  Proof.
    intros l F0 m F1 E.
    assert (Ht : forall m0, In m0 (flat_map (scheduled_by o) l) ->
      match m0 with SmGreeting _ => False | _ => True end).
    { intros m0 Hin. apply in_flat_map in Hin as (e & _ & Hin).
      destruct e as [r h|b|q [h|q']|t [h|t']|q [h|q']|t [h|t']|rx|r|]; cbn in Hin;
        try (destruct Hin as [<-|[]]; exact I); try contradiction.
      destruct rx as [raw v|i]; cbn in Hin.
      - destruct v as [| | |i| | |]; try contradiction.
        unfold when_sync in Hin. destruct (cl_mode i); [destruct Hin as [<-|[]]; exact I|contradiction].
      - unfold when_sync in Hin. destruct (cl_mode i); [destruct Hin as [<-|[]]; exact I|contradiction]. }
    unfold sent, scheduled in E. destruct (length (souts l)) as [|n]; cbn in E.
    { destruct F0; discriminate. }
    destruct F0 as [|m0 F0]; cbn in E; injection E as Em E.
    - subst m. auto.
    - assert (Hin : In m (flat_map (scheduled_by o) l)).
      { assert (In m (firstn n (flat_map (scheduled_by o) l))).
        { rewrite <- E. apply in_or_app. right. now left. }
        rewrite <- (firstn_skipn n). apply in_or_app. now left. }
      specialize (Ht _ Hin). destruct m; [contradiction|discriminate].
  Qed.

  Lemma respinv_steps : forall l z, zsteps (znew gc gs gr) l z ->
    (forall m, In m (sched (slogs l)) -> msg_roundtrips K relaxed m) -> respinv l z.
  Proof.
    intros l z H. remember (znew gc gs gr) as z0 eqn:E0.
    induction H as [z|z l z1 l1 z2 H IH H1]; intro Law; subst z.
    { exists [], []. cbn. repeat split; auto; congruence. }
    specialize (IH eq_refl).
    assert (Law1 : forall m, In m (sched (slogs l)) -> msg_roundtrips K relaxed m).
    { intros m Hm. apply Law. rewrite slogs_app, scheduled_app. apply in_or_app. now left. }
    specialize (IH Law1). destruct IH as (F0 & F1 & E1 & E2 & E3 & E4).
    pose proof (sinv_steps K o gs gr _ _ (zsteps_xsteps K relaxed o _ _ _ H)) as I1.
    assert (I2 : sinv K o gr (slogs (l ++ l1)) (z_x z2)).
    { apply (sinv_steps K o gs gr). apply (zsteps_xsteps K relaxed o (znew gc gs gr)).
      econstructor; eauto. }
    assert (LawF : forall m F1', F1 = m :: F1' -> msg_roundtrips K relaxed m).
    { intros m F1' ->. apply Law1. destruct (sent_spec _ _ I1) as [_ A]. rewrite A, <- E1.
      apply in_or_app. left. apply in_or_app. right. now left. }
    destruct H1 as [a a' x ts tc lc Ha Hi|a x x' ts tc ls Hx Hi|a x ts tc d|a x ts tc d];
      cbn [z_a z_x z_toC z_toS] in *.
    - (* client *)
      unfold respinv. cbn [z_a z_toC].
      rewrite clogs_app, slogs_app, clogs_YC, slogs_YC, app_nil_r, received_app, E2.
      assert (Keep : a_buf a' = a_buf a -> a_greeted a' = a_greeted a -> taken lc = [] ->
        exists F2 F3, F2 ++ F3 = sent o gr (slogs l) /\
          map msg_verdict F0 ++ received lc = map msg_verdict F2 /\
          a_buf a' ++ tc = concat (map mbytes F3) /\
          (a_greeted a' = true <-> F2 <> [])).
      { intros Hb Hg Ht. exists F0, F1. unfold received. rewrite Ht, Hb, Hg. cbn.
        rewrite app_nil_r. auto. }
      (* a message is taken *)
      assert (Take : forall raw rest v, a_buf a = raw ++ rest -> taken lc = [Crx raw v] ->
        a_buf a' = rest -> a_greeted a' = true ->
        (if a_greeted a then exists ls q, response_frame K relaxed raw ls q /\
           (v = match q with OMsg r => CvResponse r | OMalformed => CvMalformed
                | OBareLf => CvBareLf | _ => v end /\ (forall i, q <> ORejected i) /\ forall m, q <> OTrailing m)
         else exists ls q, greeting_frame K relaxed raw ls q /\
           (v = match q with OMsg r => CvGreeting r | OMalformed => CvMalformed
                | OBareLf => CvBareLf | _ => v end /\ (forall i, q <> ORejected i) /\ forall m, q <> OTrailing m)) ->
        exists F2 F3, F2 ++ F3 = sent o gr (slogs l) /\
          map msg_verdict F0 ++ received lc = map msg_verdict F2 /\
          a_buf a' ++ tc = concat (map mbytes F3) /\
          (a_greeted a' = true <-> F2 <> [])).
      { intros raw rest v Hb Ht Hb' Hg' Hf.
        destruct F1 as [|m F1].
        { exfalso. rewrite Hb in E3. cbn in E3. apply app_eq_nil in E3 as [E3 _].
          apply app_eq_nil in E3 as [-> _]. destruct (a_greeted a);
            destruct Hf as (ls & q & Hf & _); apply scan_nonempty in Hf; cbn in Hf; lia. }
        pose proof (sent_shape _ _ _ _ E1) as Sh.
        pose proof (LawF m F1 eq_refl) as Lm.
        exists (F0 ++ [m]), F1. rewrite <- app_assoc. split; [exact E1|].
        cbn in E3. rewrite Hb, <- app_assoc in E3.
        assert (R : raw = mbytes m /\ v = msg_verdict m).
        { destruct m as [g|h r].
          - destruct Sh as [-> ->]. destruct (a_greeted a).
            { exfalso. now apply E4. }
            destruct Hf as (ls & q & Hf & Hv & _). destruct Lm as (ls' & Lm).
            destruct (ClientThms.framing_unique _ _ _ _ _ _ _ _ _ _ _ Hf Lm E3) as (-> & _ & ->).
            auto.
          - destruct (a_greeted a).
            2:{ exfalso. assert (false = true) by now apply E4. discriminate. }
            destruct Hf as (ls & q & Hf & Hv & _). destruct Lm as (ls' & Lm).
            destruct (ClientThms.framing_unique _ _ _ _ _ _ _ _ _ _ _ Hf Lm E3) as (-> & _ & ->).
            auto. }
        destruct R as [-> ->]. apply app_inv_head in E3.
        unfold received. rewrite Ht, map_app. cbn. split; [reflexivity|].
        rewrite Hb'. split; [exact E3|]. rewrite Hg'. split; [|auto].
        intros _. destruct F0; discriminate. }
      destruct Ha as [a cmd g0 h Hg|a b|a d s r H0|a s r H0|a s H0 H1|a s e H0 H1|a s b H0 H1
        |a H0 H1|a raw rest ls g0 H0 H1 H2|a raw rest ls q s H0 H1 H2 H3 H4
        |a raw rest ls m c' e H0 H1 H2 H3 H4|a raw rest v e H0 H1 H2];
        try (apply Keep; reflexivity).
      + (* input *) cbn in Hi. rewrite app_nil_r in Hi. subst b. apply Keep; cbn; rewrite ?app_nil_r; auto.
      + eapply Take; eauto; try reflexivity. rewrite H0. exists ls, (OMsg g0).
        split; [exact H2|]. repeat split; congruence.
      + eapply Take; eauto; try reflexivity. rewrite H0. exists ls, (OMsg (RCcr q)).
        split; [exact H3|]. repeat split; congruence.
      + eapply Take; eauto; try reflexivity. rewrite H0. exists ls, (OMsg m).
        split; [exact H3|]. repeat split; congruence.
      + (* bad: impossible *)
        exfalso.
        assert (Hq : if a_greeted a then exists ls q, response_frame K relaxed raw ls q /\ forall m, q <> OMsg m
                     else exists ls q, greeting_frame K relaxed raw ls q /\ forall m, q <> OMsg m).
        { destruct H2 as [(-> & -> & H2)|(-> & -> & H2)]; destruct (a_greeted a);
            destruct H2 as (ls & H2); eexists _, _; (split; [exact H2|congruence]). }
        destruct F1 as [|m F1].
        { rewrite H1 in E3. cbn in E3. apply app_eq_nil in E3 as [E3 _].
          apply app_eq_nil in E3 as [-> _]. destruct (a_greeted a);
            destruct Hq as (ls & q & Hf & _); apply scan_nonempty in Hf; cbn in Hf; lia. }
        pose proof (sent_shape _ _ _ _ E1) as Sh.
        pose proof (LawF m F1 eq_refl) as Lm.
        cbn in E3. rewrite H1, <- app_assoc in E3. destruct m as [g|h r].
        * destruct Sh as [-> ->]. destruct (a_greeted a).
          { now apply E4. }
          destruct Hq as (ls & q & Hf & Hv). destruct Lm as (ls' & Lm).
          destruct (ClientThms.framing_unique _ _ _ _ _ _ _ _ _ _ _ Hf Lm E3) as (_ & _ & ->).
          now apply (Hv gr).
        * destruct (a_greeted a).
          2:{ assert (false = true) by now apply E4. discriminate. }
          destruct Hq as (ls & q & Hf & Hv). destruct Lm as (ls' & Lm).
          destruct (ClientThms.framing_unique _ _ _ _ _ _ _ _ _ _ _ Hf Lm E3) as (_ & _ & ->).
          now apply (Hv r).
    - (* server *)
      rewrite slogs_app, slogs_YS in I2.
      destruct (sent_grows _ _ _ _ I1 I2) as (e & G1 & G2).
      exists F0, (F1 ++ e). cbn [z_a z_toC].
      rewrite clogs_app, slogs_app, clogs_YS, slogs_YS, app_nil_r.
      rewrite G1, <- E1, app_assoc. split; [reflexivity|]. split; [assumption|].
      split; [|assumption]. now rewrite app_assoc, E3, G2, map_app, concat_app.
    - (* delivery to the server *)
      rewrite slogs_app in I2. cbn [slogs] in I2.
      destruct (sent_grows _ _ _ _ I1 I2) as (e & G1 & G2).
      exists F0, F1. cbn [z_a z_toC]. rewrite clogs_app, slogs_app. cbn [clogs slogs]. rewrite app_nil_r.
      replace (sent o gr (slogs l ++ [SlInput d])) with (sent o gr (slogs l)); auto.
      unfold sent. rewrite souts_app, scheduled_app. cbn. now rewrite !app_nil_r.
    - (* delivery to the client *)
      exists F0, F1. cbn. rewrite clogs_app, slogs_app. cbn [clogs slogs]. rewrite app_nil_r.
      rewrite received_app, E2. cbn. rewrite app_nil_r, <- app_assoc. auto.
  Qed.

  (** *** Runs *)

  Variable acts : list yact.
  Variable y : sys.
  Variable l : list ylog.
  Hypothesis Run : yran K relaxed gc gs o gr acts y l.
  Hypothesis Law : forall m, In m (sched (slogs l)) -> msg_roundtrips K relaxed m.

  Lemma resp_prefix : exists rest, map msg_verdict (sent o gr (slogs l)) = received (clogs l) ++ rest.
  Proof.
    destruct (sys_run_new K relaxed o gc gs gr _ _ _ Run) as (z & St & R).
    destruct (respinv_steps _ _ St Law) as (F0 & F1 & E1 & E2 & _).
    exists (map msg_verdict F1). now rewrite <- E1, map_app, E2.
  Qed.

  Lemma resp_waiting : waiting K y -> received (clogs l) = map msg_verdict (sent o gr (slogs l)).
  Proof.
    intros (W1 & W2 & (c' & W3) & _).
    destruct (sys_run_new K relaxed o gc gs gr _ _ _ Run) as (z & St & Rc & Rs & R1 & R2).
    destruct z as [a x ts tc]. cbn in *. subst ts tc. rewrite W1, W2 in St.
    destruct (client_waits K relaxed _ _ _ Rc W3) as (a' & Sa & Hset & Hno & _).
    pose proof (zsteps_trans _ _ _ _ _ _ _ _ St
      (zsteps_client K relaxed o _ _ _ x [] [] Sa eq_refl)) as St'.
    assert (Ls : slogs (l ++ map YC [ClNext INeedMore]) = slogs l).
    { rewrite slogs_app. apply app_nil_r. }
    assert (Lc : received (clogs (l ++ map YC [ClNext INeedMore])) = received (clogs l)).
    { rewrite clogs_app, received_app. apply app_nil_r. }
    assert (Law' : forall m, In m (sched (slogs (l ++ map YC [ClNext INeedMore]))) ->
      msg_roundtrips K relaxed m) by now rewrite Ls.
    destruct (respinv_steps _ _ St' Law') as (F0 & F1 & E1 & E2 & E3 & E4).
    rewrite Ls in E1. rewrite Lc in E2. cbn [z_a z_toC] in *. rewrite app_nil_r in E3.
    assert (F1 = []).
    { destruct F1 as [|m F1]; [reflexivity|]. exfalso.
      pose proof (sent_shape _ _ _ _ E1) as Sh.
      assert (Lm : msg_roundtrips K relaxed m).
      { assert (Hin : In m (sched (slogs l))); [|now apply Law]. unfold sent in E1.
        rewrite <- (firstn_skipn (length (souts (slogs l))) (sched (slogs l))), <- E1.
        apply in_or_app. left. apply in_or_app. right. now left. }
      unfold a_no_message in Hno. destruct m as [g|h r].
      - destruct Sh as [-> ->]. destruct (a_greeted a').
        { now apply E4. }
        apply Hno. destruct Lm as (ls & Lm). exists (mbytes (SmGreeting gr)), (concat (map mbytes F1)), ls, (OMsg gr).
        split; [exact E3|exact Lm].
      - destruct (a_greeted a').
        2:{ assert (false = true) by now apply E4. discriminate. }
        apply Hno. destruct Lm as (ls & Lm). exists (mbytes (SmResponse h r)), (concat (map mbytes F1)), ls, (OMsg r).
        split; [exact E3|exact Lm]. }
    subst F1. rewrite app_nil_r in E1. now rewrite <- E1.
  Qed.

  Lemma resp_waiting_twice : waiting_twice K y ->
    received (clogs l) = map msg_verdict (sched (slogs l)).
  Proof.
    intros (W & s1 & s2 & W1 & W2). rewrite (resp_waiting W). f_equal.
    destruct (sys_run_new K relaxed o gc gs gr _ _ _ Run) as (z & St & Rc & Rs & _).
    destruct (server_waits K o _ _ _ Rs W1) as (x1 & X1 & R1 & _ & _ & _ & _ & _ & Q1 & C1 & _).
    destruct (server_waits K o _ _ _ R1 W2) as (x2 & X2 & R2 & _ & _ & _ & _ & _ & Q2 & C2 & _).
    assert (I : sinv K o gr (slogs l ++ [SlNext INeedMore]) x1).
    { apply (sinv_steps K o gs gr). eapply xsteps_trans; [|exact X1].
      exact (zsteps_xsteps K relaxed o _ _ _ St). }
    destruct (sent_spec _ _ I) as [_ A].
    unfold quiet in Q2. rewrite C1 in Q2. destruct (ss_queue (x_send x1)); [|discriminate].
    rewrite app_nil_r in A. unfold sent in A. rewrite scheduled_app, souts_app in A. cbn in A.
    rewrite !app_nil_r in A. symmetry. exact A.
  Qed.
End Resp.
