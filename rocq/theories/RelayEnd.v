(** Client, proxy and server: each runs as alone; no messages are malformed; why the proxy
    ends. *)
From Coq Require Import List NArith Bool PeanoNat Lia.
From Verif Require Import Base Types Codec Handle Receive ClientSend Client ServerSend Server
  SpecFraming SpecClient SpecServer ClientAbs System SystemAbs SpecSystem SpecSystemLive SystemResp SystemThms
  Stream StreamMachine SpecStream Net SpecNet NetProofs NetApp NetThms
  ProxyUtil Proxy Relay SpecRelay RelayProofs RelayTalk RelayGlue RelayOrderly RelayThms.
From Verif Require ClientInv SpecProxy ProxyRuns.
Import ListNotations.

(** ** Nothing is malformed *)

Lemma error_received : forall K relaxed g l a, asteps K relaxed (astate_new g) l a ->
  forall e, In (ClNext (IError e)) l -> In CvMalformed (received l) \/ In CvBareLf (received l).
Proof.
  intros K relaxed g l z H. induction H as [z|z l a1 l1 a2 H IH H1]; intros er Hin; [contradiction|].
  unfold received. rewrite ClientInv.taken_app, map_app. rewrite !in_app_iff.
  apply in_app_or in Hin as [Hin|Hin]; [destruct (IH _ Hin); auto|].
  destruct H1 as [a cmd g0 h Hg|a x|a d s r Hs|a s r Hs|a s Hgr Hs|a s e Hgr Hs|a s b Hgr Hs
        |a Hst Hno|a raw rest ls g0 Hgr Hb Hf|a raw rest ls q s Hgr Hst Hb Hf Hl
        |a raw rest ls m c' e Hgr Hst Hb Hf Hh|a raw rest v e Hst Hb Hbad]; cbn in Hin;
    try (exfalso; intuition discriminate).
  destruct Hbad as [(-> & _)|(-> & _)]; cbn; auto.
Qed.

Section Net.
Context (K : Codecs) (relaxed : bool) (o : soptions) (gc gs : hgen) (gr : greeting) (T1 T2 : tls).
Context (z : net T1 T2 (client_machine K) (server_machine K)) (L : list (nlog (client_machine K) (server_machine K))).
Hypothesis Talk : @talk K relaxed o gc gs gr T1 T2 z L.
Hypothesis Ord : orderly K relaxed o gr (app_log L).
Hypothesis Own : own_roundtrips K relaxed o (app_log L).

(** The client is never told an error. *)
Lemma net_client_clean : forall e, ~ In (ClNext (IError e)) (clogs (app_log L)).
Proof.
  intros e H. destruct (net_lift K relaxed o gc gs gr T1 T2 z L Talk Ord Own) as (acts & y & l & Y & O & E1 & E2).
  rewrite E1, shown_clogs in H. apply filter_In in H as [H _].
  destruct (sys_run_new K relaxed o gc gs gr _ _ _ Y) as (zz & St & _).
  apply (error_received K relaxed _ _ _ (zsteps_asteps K relaxed o _ _ _ St)) in H.
  destruct (resp_prefix K relaxed o gc gs gr acts y l Y (or_msgs _ _ _ _ _ O)) as (rest & E).
  assert (Q : forall v, In v (received (clogs l)) -> exists m, v = msg_verdict m).
  { intros v Hv. assert (H1 : In v (map msg_verdict (sent o gr (slogs l)))) by (rewrite E; apply in_or_app; now left).
    apply in_map_iff in H1 as (m & M1 & _). eauto. }
  destruct H as [H|H]; apply Q in H as [[] H]; discriminate.
Qed.

(** The server is told no error but that a literal is too long. *)
Lemma net_server_clean : forall e, In (SlNext (IError e)) (slogs (app_log L)) ->
  exists x, e = SerrLiteralTooLong x.
Proof.
  intros e H. destruct (net_exchange K relaxed o gc gs gr T1 T2 z L Talk Ord Own) as (took & rd & more & _ & Hf & Hs & _).
  assert (R : In (IError e) (sreports (slogs (app_log L)))).
  { unfold sreports. apply filter_In. split; [|reflexivity].
    clear - H. induction (slogs (app_log L)) as [|x l IH]; [contradiction|].
    destruct H as [->|H]; [now left|]. destruct x; cbn; auto. }
  rewrite Hs in R. apply in_map_iff in R as (p & E & Hp). clear - Hf E Hp.
  induction Hf as [|p' q took rd Q Hf IH]; [contradiction|].
  destruct Hp as [->|Hp]; [|now apply IH]. destruct Q; cbn in E; try discriminate. injection E as <-. eauto.
Qed.
End Net.

(** ** Each runs as alone *)

Section Relay.
Context (K : Codecs) (relaxed : bool) (o : soptions) (gc gp gq gs : hgen) (gr : greeting) (T1 T2 T3 T4 : tls).
Context (fuel : nat) (s1 : stream T1) (s2 : stream T2) (s3 : stream T3) (s4 : stream T4).
Notation CM := (client_machine K).
Notation SM := (server_machine K).

Lemma relay_alone : forall acts z L,
  relay_run K T1 T2 T3 T4 fuel gp (relay_new K T1 T2 T3 T4 s1 s2 s3 s4 relaxed o gc gq gs gr) acts = (z, L) ->
  (exists a1, xrun T1 CM fuel (@XState T1 CM s1 (client_new gc relaxed) FIdle) a1 = (r_client z, lefts (front L))) /\
  (exists ap, prun K T2 T3 fuel gp (proxy_start K T2 T3 s2 s3 gq) ap = (r_proxy z, middle L)) /\
  (exists a4, xrun T4 SM fuel (@XState T4 SM s4 (server_new gs o gr) FIdle) a4 = (r_server z, rights (back L))).
Proof.
  intros acts z L E.
  assert (P := relay_proxy K T1 T2 T3 T4 fuel s1 s2 s3 s4 relaxed o gc gp gq gs gr acts z L E).
  assert (G := relay_legs K T1 T2 T3 T4 fuel s1 s2 s3 s4 relaxed o gc gp gq gs gr acts z L E).
  unfold legs in G.
  assert (F : forall g n, fran K T1 T2 fuel s1 s2 relaxed gc gp g n (front L) ->
    exists a1, xrun T1 CM fuel (@XState T1 CM s1 (client_new gc relaxed) FIdle) a1 = (n_l n, lefts (front L))).
  { intros g n [a R]. exact (proj1 (net_projects _ _ _ _ _ _ _ _ _ _ _ _ R)). }
  assert (B : forall n, bran K T3 T4 fuel s3 s4 o gq gs gr n (back L) ->
    exists a4, xrun T4 SM fuel (@XState T4 SM s4 (server_new gs o gr) FIdle) a4 = (n_r n, rights (back L))).
  { intros n [a R]. exact (proj2 (net_projects _ _ _ _ _ _ _ _ _ _ _ _ R)). }
  destruct (r_proxy z) as [c s|c s|why].
  - destruct G as (_ & _ & _ & _ & G1 & G2). specialize (F _ _ (G1 gr)). specialize (B _ G2). auto.
  - destruct G as (_ & _ & (g & _ & G1) & G2). specialize (F _ _ G1). specialize (B _ G2). auto.
  - destruct G as ([(_ & G1)|(g & c & _ & G1)] & s & G2); specialize (B _ G2).
    + destruct (G1 gr) as [c G3]. specialize (F _ _ G3). auto.
    + specialize (F _ _ G1). auto.
Qed.

Lemma relay_talks : forall acts z L,
  relay_run K T1 T2 T3 T4 fuel gp (relay_new K T1 T2 T3 T4 s1 s2 s3 s4 relaxed o gc gq gs gr) acts = (z, L) ->
  (linked s1 s2 (front L) -> exists g n, @talk K relaxed proxy_soptions gc gp g T1 T2 n (front L)) /\
  (linked s3 s4 (back L) -> exists n, @talk K false o gq gs gr T3 T4 n (back L)).
Proof.
  intros acts z L E.
  assert (G := relay_legs K T1 T2 T3 T4 fuel s1 s2 s3 s4 relaxed o gc gp gq gs gr acts z L E).
  unfold legs in G. split; intro Lk.
  - destruct (r_proxy z) as [c s|c s|why].
    + destruct G as (_ & _ & _ & _ & G & _). do 2 eexists. eapply linked_talk; [apply (G gr)|exact Lk].
    + destruct G as (_ & _ & (g & _ & G) & _). do 2 eexists. eapply linked_talk; eauto.
    + destruct G as ([(_ & G)|(g & c & _ & G)] & _).
      * destruct (G gr) as [c G']. do 2 eexists. eapply linked_talk; eauto.
      * do 2 eexists. eapply linked_talk; eauto.
  - destruct (r_proxy z) as [c s|c s|why].
    + destruct G as (_ & _ & _ & _ & _ & G). eexists. eapply linked_talk; eauto.
    + destruct G as (_ & _ & _ & G). eexists. eapply linked_talk; eauto.
    + destruct G as (_ & s & G). eexists. eapply linked_talk; eauto.
Qed.
End Relay.

(** ** Why the proxy ends *)

Section Ends.
Context (K : Codecs) (relaxed : bool) (o : soptions) (gc gp gq gs : hgen) (gr : greeting) (T1 T2 T3 T4 : tls).
Context (z : relay K T1 T2 T3 T4) (L : list (rlog K)).
Hypothesis Run : relays relaxed o gc gp gq gs gr T1 T2 T3 T4 z L.
Hypothesis Ord : relay_orderly relaxed o gr L.

Lemma relay_clean :
  (forall e, ~ In (ClNext (IError e)) (at_left L)) /\ (forall e, ~ In (ClNext (IError e)) (at_out L)) /\
  (forall e, In (SlNext (IError e)) (at_in L) -> exists x, e = SerrLiteralTooLong x) /\
  (forall e, In (SlNext (IError e)) (at_right L) -> exists x, e = SerrLiteralTooLong x).
Proof.
  destruct (relay_facts _ _ _ _ _ _ _ _ _ _ _ _ _ _ Run Ord) as (_ & (n & Tf) & O1 & O2 & (n' & Tb) & O3 & O4 & _).
  split; [exact (net_client_clean _ _ _ _ _ _ _ _ _ _ Tf O1 O2)|].
  split; [exact (net_client_clean _ _ _ _ _ _ _ _ _ _ Tb O3 O4)|].
  split; [exact (net_server_clean _ _ _ _ _ _ _ _ _ _ Tf O1 O2)|].
  exact (net_server_clean _ _ _ _ _ _ _ _ _ _ Tb O3 O4).
Qed.

Lemma relay_ends : no_trailing K false -> single_lines K -> sno_trailing K proxy_soptions ->
  ~ In (PlClient XHang) (middle L) -> ~ In (PlServer XHang) (middle L) ->
  forall why, r_proxy z = PsEnd why ->
  why = PeAborted /\ existsb (@SpecProxy.loses K) (middle L) = true.
Proof.
  intros H1 H2 H3 X1 X2 why E.
  assert (P : exists s2 s3 fuel ap, prun K T2 T3 fuel gp (proxy_start K T2 T3 s2 s3 gq) ap = (PsEnd why, middle L)).
  { destruct Run as [s1 s2 s3 s4 fuel acts R _ _]. apply relay_alone in R as (_ & [ap R] & _). rewrite E in R. eauto. }
  destruct P as (s2 & s3 & fuel & ap & P).
  pose proof (relay_no_panic _ _ _ _ _ _ _ _ _ _ _ _ _ _ Run Ord) as N.
  pose proof (ProxyRuns.proxy_ends' _ _ _ _ _ _ _ _ _ _ _ P) as C. cbn in C.
  pose proof (ProxyRuns.proxy_states_live _ _ _ _ _ _ _ _ _ _ _ H1 H2 H3 P) as B.
  assert (Cu : ~ SpecProxy.culprit (middle L)).
  { intro Q. apply N. destruct Q; apply in_or_app; right; cbn; auto. }
  inversion C as [l1 H|l1 H|l1 H|l1 H|l1 H]; subst; try contradiction.
  - tauto.
  - auto.
  - destruct H as (_ & e & H). exfalso. apply (proj1 (proj2 relay_clean) e).
    rewrite at_out_caw. unfold caw. apply in_flat_map. exists (XRet (RetState e)). split; [|now left].
    clear - H. induction (middle L) as [|x l IH]; [contradiction|]. destruct H as [->|H]; [now left|].
    destruct x; cbn; auto.
Qed.
End Ends.
