(** What the proxy sends to the client are the responses of the server. *)
From Coq Require Import List NArith Bool PeanoNat Lia.
From Verif Require Import Base Types Codec Handle Receive ClientSend Client ServerSend Server
  SpecFraming SpecClient SpecServer System SystemAbs SpecSystem SpecSystemLive SystemLog SpecViews SystemViews
  Stream StreamMachine SpecStream Net SpecNet NetProofs NetApp NetThms NetViews ProxyEffect ClientFit RelayFit
  ProxyUtil Proxy Relay SpecRelay RelayProofs RelayTalk RelayGlue RelayInv RelayOrder RelaySteps RelayOrderly.
From Verif Require ClientInv SpecProxy ProxyRuns.
Import ListNotations.

Lemma interleaved_in : forall {A} (xs rs ys : list A), interleaved xs rs ys ->
  forall y, In y ys -> In y xs \/ In y rs.
Proof.
  intros A xs rs ys H. induction H as [|x xs rs ys H IH|r xs rs ys H IH]; intros y Hy; [contradiction|..].
  - destruct Hy as [->|Hy]; [left; now left|]. destruct (IH _ Hy); [left; now right|now right].
  - destruct Hy as [->|Hy]; [right; now left|]. destruct (IH _ Hy); [now left|right; now right].
Qed.

Lemma forall2_in : forall {A B} (P : A -> B -> Prop) xs ys, Forall2 P xs ys ->
  forall y, In y ys -> exists x, In x xs /\ P x y.
Proof.
  intros A B P xs ys H. induction H as [|x y xs ys H0 H IH]; intros b Hb; [contradiction|].
  destruct Hb as [<-|Hb]; [exists x; split; [now left|exact H0]|].
  destruct (IH _ Hb) as (a & Ha & Hp). exists a. split; [now right|exact Hp].
Qed.

Section Main.
Context (K : Codecs) (T1 T2 T3 T4 : tls) (fuel : nat).
Context (s1 : stream T1) (s2 : stream T2) (s3 : stream T3) (s4 : stream T4).
Context (relaxed : bool) (o : soptions) (gc gp gq gs : hgen) (gr : greeting).
Notation SM := (server_machine K).
Notation CM := (client_machine K).
Notation step := (relay_step K T1 T2 T3 T4 fuel gp).
Notation run := (relay_run K T1 T2 T3 T4 fuel gp).
Notation start := (relay_new K T1 T2 T3 T4 s1 s2 s3 s4 relaxed o gc gq gs gr).
Notation legs := (legs K T1 T2 T3 T4 fuel s1 s2 s3 s4 relaxed o gc gp gq gs gr).
Notation RE := (@ends_orderly K relaxed o gr).
Notation RO := (@relay_orderly K relaxed o gr).
Notation rinv := (rinv K T1 T2 T3 T4).
Notation sched l := (scheduled proxy_soptions (filter_greeting gr) l).

(** What the proxy's client was told comes from the server. *)
Lemma told_given : forall z L r, @talk K false o gq gs gr T3 T4 z (back L) -> RE L ->
  backed (at_left L) (at_out L) -> In r (reported_all (events (at_out L))) ->
  In r (given (rights (back L))) \/
  exists h c, In (h, c) (enqueued (at_left L)) /\ In r (rejection K o (RqCommand c)).
Proof.
  intros z L r Tk R B Hr. destruct (re_back_orderly K relaxed o gr L R B) as [O1 O2].
  destruct (net_exchange _ _ _ _ _ _ _ _ _ _ Tk O1 O2) as (took & rd & rest & Hq & _ & _ & ys & more & Hi & ->).
  assert (Hy : In r (reported_all (events (clogs (app_log (back L)))) ++ more)) by (apply in_or_app; now left).
  clear Hr. apply (interleaved_in _ _ _ Hi) in Hy as [Hr|Hr]; [now left|right]. apply in_flat_map in Hr as (q & Hin & Hr).
  destruct q as [c|d|]; try contradiction.
  assert (Hm : made (at_out L) (RqCommand c)).
  { apply requests_made. unfold at_out. rewrite Hq. apply in_or_app. now left. }
  destruct Hm as [h Hm]. apply in_enqueued in Hm. destruct B as [B _]. apply B in Hm as [h' Hm].
  exists h', c. split; [exact Hm|exact Hr].
Qed.

Lemma sched_more : forall a b, (forall m, In m (sched a) -> msg_roundtrips K relaxed m) ->
  (forall m, In m (flat_map (scheduled_by proxy_soptions) b) -> msg_roundtrips K relaxed m) ->
  forall m, In m (sched (a ++ b)) -> msg_roundtrips K relaxed m.
Proof.
  intros a b Ha Hb m Hm. unfold scheduled in Hm. rewrite flat_map_app in Hm. destruct Hm as [<-|Hm].
  - apply Ha. now left.
  - apply in_app_or in Hm as [Hm|Hm]; [apply Ha; now right|now apply Hb].
Qed.

Lemma passed_step : forall z L a z' l, legs z L -> RO L -> rinv z L -> step z a = (z', l) ->
  linked s1 s2 (front (L ++ l)) -> linked s3 s4 (back (L ++ l)) -> RE (L ++ l) -> relayable relaxed o gr (L ++ l) ->
  RO (L ++ l).
Proof.
  intros z L a z' l HL Ro (P & NP & B & I) E F1 F2 Re Rl. constructor; [exact Re|].
  pose proof (legs_step _ _ _ _ _ _ _ _ _ _ _ _ _ _ _ _ _ _ _ _ _ _ HL E) as HL'.
  assert (F : linked s1 s2 (front L) /\ linked s3 s4 (back L) /\ RO L).
  { rewrite front_app in F1. rewrite back_app in F2.
    split; [eapply linked_app; eauto|]. split; [eapply linked_app; eauto|exact Ro]. }
  pose proof (ro_passed _ _ _ _ Ro) as H0. rewrite in_log_app. apply sched_more; [exact H0|].
  destruct (step_kinds _ _ _ _ _ _ _ _ _ _ _ E) as [(Ez & k & ->)|[(Ez & k & ->)|(b & k & Es & ->)]].
  - rewrite at_in_saw, middle_c. intros m [].
  - rewrite at_in_saw, middle_s. intros m [].
  - destruct b as [b a0]. rewrite (at_in_saw K (map RP k)), middle_p.
    destruct (r_proxy z) as [c s|c s|why] eqn:Ep.
    + destruct b; cbn [pstep] in Es; [|apply pair_equal_spec in Es as [_ <-]; intros m []].
      apply greeting_glue in Es as (G1 & _). rewrite G1. intros m [].
    + assert (lives c /\ lives s) as [Lc Ls].
      { pose proof HL as Hx. unfold RelayProofs.legs in Hx. rewrite Ep in Hx. split; apply Hx. }
      destruct b; cbn [pstep] in Es.
      * assert (HG : ProxyRuns.greeted_with K (middle L) gr).
        { pose proof HL as Hx. unfold RelayProofs.legs in Hx. rewrite Ep in Hx. destruct Hx as (_ & _ & (g & Hg & _) & _).
          pose proof (leg_greeting _ _ _ _ _ _ _ _ _ _ _ _ _ _ _ _ _ _ _ HL F B _ Hg). now subst g. }
        destruct (leg_front _ _ _ _ _ _ _ _ _ _ _ _ _ _ _ _ _ _ _ HL' F1) as [nf Tf].
        { intros g Hg. rewrite middle_app in Hg. apply (ProxyRuns.greeted_with_app K _ (middle (map RP k))) in HG.
          destruct Hg as [es Hg], HG as [es' HG]. rewrite Hg in HG. now injection HG. }
        destruct (leg_back _ _ _ _ _ _ _ _ _ _ _ _ _ _ _ _ _ _ _ HL' F2) as [nb Tb].
        destruct (net_fit _ _ _ _ _ _ _ _ _ _ Tf) as [_ Mf]. destruct (net_fit _ _ _ _ _ _ _ _ _ _ Tb) as [Fb _].
        change (all_modal (at_in (L ++ map RP k))) in Mf. change (all_fitting (at_out (L ++ map RP k))) in Fb.
        rewrite in_log_app, at_in_saw, (at_in_saw K (map RP k)), <- at_in_saw, middle_p in Mf.
        rewrite out_log_app, at_out_caw, (at_out_caw K (map RP k)), <- at_out_caw, middle_p in Fb.
        assert (Lf : at_left (map RP k) = []).
        { unfold at_left. rewrite clogs_app_log, front_p. clear. now induction (SpecProxy.at_client k). }
        apply server_glue in Es as (b & D & _).
        assert (B' : backed (at_left L) (at_out L ++ caw K k)).
        { rewrite <- (app_nil_r (at_left L)). eapply backed_same; [exact B|]. rewrite calls_app.
          destruct D; cbn; now rewrite app_nil_r. }
        assert (B'' : backed (at_left (L ++ map RP k)) (at_out (L ++ map RP k))).
        { rewrite left_app, Lf, app_nil_r, out_log_app, (at_out_caw K (map RP k)), middle_p. exact B'. }
        destruct (re_back_orderly K relaxed o gr _ Re B'') as [O1 O2].
        destruct (net_views _ _ _ _ _ _ _ _ _ _ Tb O1 O2) as [V _].
        change (all_expected (at_out (L ++ map RP k))) in V.
        rewrite out_log_app, (at_out_caw K (map RP k)), middle_p in V.
        assert (A : forall m, In m (flat_map (scheduled_by proxy_soptions) (saw K k)) ->
          exists h r, m = SmResponse h r /\ In r (flat_map accepted (saw K k))).
        { destruct D; cbn;
            repeat match goal with |- context [match ?x with inl _ => _ | inr _ => _ end] => destruct x; cbn end;
            intros m Hm; try contradiction; destruct Hm as [<-|[]]; eexists; eexists;
            (split; [reflexivity|now left]). }
        destruct (dn_step _ _ _ _ _ _ I D P Fb Mf V) as (_ & J & _).
        assert (G : gend (at_in L ++ saw K k) (at_out L ++ caw K k)) by (destruct J as [J|[_ J]]; [now apply ginv_gend|exact J]).
        destruct (ge_resp _ _ G) as (got & rest & Er & _ & Hp).
        intros m Hm. apply A in Hm as (h & r & -> & Hm).
        destruct (forall2_in _ _ _ Hp r) as (r0 & Hr0 & Hpass).
        { rewrite flat_map_app. apply in_or_app. now right. }
        apply (proj2 Rl r0 r h Hpass). apply (told_given nb _ r0 Tb Re B'').
        rewrite out_log_app, (at_out_caw K (map RP k)), middle_p.
        change (In r0 (responses (at_out L ++ caw K k))). rewrite Er. apply in_or_app. now left.
      * apply client_glue in Es as (b & D & _). destruct D; intros m [].
    + cbn [pstep] in Es. apply pair_equal_spec in Es as [_ <-]. intros m [].
Qed.

Lemma given_more : forall a b : list (xlog SM), given (a ++ b) = given a ++ given b.
Proof.
  induction a as [|e a IH]; intro b; [reflexivity|].
  destruct e; cbn; rewrite IH; try reflexivity. apply app_assoc.
Qed.

Lemma relayable_app : forall a b, relayable relaxed o gr (a ++ b) -> @relayable K relaxed o gr a.
Proof.
  intros a b [H1 H2]. split; [exact H1|]. intros r r' h P [H|(h0 & c & Hin & H)]; apply (H2 r r' h P).
  - left. rewrite back_app, rights_app, given_more. apply in_or_app. now left.
  - right. exists h0, c. split; [|exact H]. rewrite left_app, ClientInv.enqueued_app. apply in_or_app. now left.
Qed.

(** What the proxy sends is within the assumptions if what it may send is. *)
Lemma relay_passed : forall acts z L, run start acts = (z, L) ->
  linked s1 s2 (front L) -> linked s3 s4 (back L) -> RE L -> relayable relaxed o gr L -> RO L.
Proof.
  intros acts. induction acts as [|a acts IH] using rev_ind; intros z L E F1 F2 Re Rl.
  - cbn in E. injection E as <- <-. constructor; [exact Re|]. intros m [<-|[]]. apply Rl.
  - rewrite relay_run_app in E. destruct (run start acts) as [z1 L1] eqn:E1. cbn in E.
    destruct (step z1 a) as [z2 l2] eqn:E2. injection E as <- <-. rewrite app_nil_r in *.
    assert (Ro : RO L1).
    { rewrite front_app in F1. rewrite back_app in F2. apply (IH _ _ eq_refl); [eapply linked_app; eauto..| |].
      - eapply re_app; eauto.
      - eapply relayable_app; eauto. }
    destruct (relay_inv _ _ _ _ _ _ _ _ _ _ _ _ _ _ _ _ _ _ _ _ E1) as [HL HI].
    { rewrite front_app in F1. rewrite back_app in F2.
      split; [eapply linked_app; eauto|]. split; [eapply linked_app; eauto|exact Ro]. }
    eapply passed_step; eauto.
Qed.
End Main.
