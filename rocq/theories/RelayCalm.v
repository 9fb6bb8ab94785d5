(** Client, proxy and server come to rest without the applications. *)
From Coq Require Import List NArith Bool PeanoNat Lia.
From Verif Require Import Base Types Codec Handle Receive ClientSend Client ServerSend Server
  SpecFraming SpecClient SpecServer System SystemAbs SpecSystem SpecSystemLive SystemLog SystemSettle SystemThms
  Stream StreamMachine SpecStream StreamState Net SpecNet NetProofs NetApp NetThms NetRest NetLive
  ProxyUtil Proxy Relay SpecRelay RelayProofs RelayTalk RelayGlue RelayOrderly RelayThms RelayEnd RelayPassed RelayLive.
From Verif Require ClientInv ClientProps SpecProxy ProxyRuns.
Import ListNotations.

(** ** No connection is lost *)

Section Lost.
Context (T : tls) (M : machine) (fuel : nat).
Definition no_loss (l : list (xlog M)) : Prop := forall r, In (XRet r) l -> SpecProxy.is_lost r = false.

Lemma sync_no_loss : forall (s : stream T) m x' l', x_tls s = None -> sync T M fuel s m = (x', l') -> no_loss l'.
Proof.
  intros s m x' l' H E. unfold sync in E.
  destruct (sync_input T M fuel s m) as [[[s1 m1] l1] r1] eqn:I.
  assert (P : r1 = None /\ x_tls s1 = None /\ no_loss l1).
  { unfold sync_input in I. rewrite H in I.
    destruct (x_rbuf s); [|destruct (m_enqueue _ _ _)]; injection I as <- <- <- <-; (split; [reflexivity|]);
      (split; [assumption || reflexivity|]); intros r Hr; cbn in Hr; intuition discriminate. }
  destruct P as (-> & P2 & P3).
  assert (A : forall k, no_loss k -> no_loss (l1 ++ k)).
  { intros k Hk r Hr. apply in_app_or in Hr as [Hr|Hr]; auto. }
  destruct m1 as [m1|].
  2:{ apply pair_equal_spec in E as [_ <-]. first [exact P3|apply A; intros r Hr; cbn in Hr; intuition discriminate]. }
  destruct (m_next M m1) as [[m2 r]|].
  2:{ apply pair_equal_spec in E as [_ <-]. apply A. intros r Hr; cbn in Hr; intuition discriminate. }
  unfold sync_output in E. rewrite P2 in E.
  destruct r; apply pair_equal_spec in E as [_ <-]; rewrite <- ?app_assoc; apply A; intros r Hr; cbn in Hr;
    repeat (destruct Hr as [Hr|Hr]; [try discriminate; try (injection Hr as <-; reflexivity)|]); try contradiction.
Qed.

Lemma calm_no_loss : forall (x : xstate T M) a x' l', x_tls (x_s x) = None -> SpecNet.calm a ->
  xstep T M fuel x a = (x', l') -> no_loss l'.
Proof.
  intros x a x' l' H C E.
  assert (Cons : forall e k, (forall r, e <> XRet r) -> no_loss k -> no_loss (e :: k)).
  { intros e k He Hk r [Hr|Hr]; [now apply He in Hr|auto]. }
  assert (Nil : no_loss []) by (intros r []).
  destruct a as [| |r|[[|n]|]|[|]| |o]; try contradiction; cbn [xstep] in E.
  - destruct (x_f x); try (injection E as _ <-; exact Nil).
    destruct (sync T M fuel (x_s x) (x_m x)) as [y k] eqn:S. injection E as _ <-.
    apply Cons; [discriminate|]. eapply sync_no_loss; eauto.
  - destruct (writing (x_f x)); [|injection E as _ <-; exact Nil].
    destruct (Nat.leb _ _); [|injection E as _ <-; exact Nil]. cbn [x_wbuf] in E.
    destruct (skipn _ _); [destruct (x_f x)|];
      try (apply pair_equal_spec in E as [_ <-]; apply Cons; [discriminate|exact Nil]).
    destruct (sync T M fuel _ (x_m x)) as [y k] eqn:S. injection E as _ <-.
    apply Cons; [discriminate|]. eapply sync_no_loss; [|exact S]. exact H.
  - destruct (x_f x); injection E as _ <-; try exact Nil.
    intros r [Hr|[]]. injection Hr as <-. reflexivity.
Qed.

Lemma read_no_loss : forall (x : xstate T M) b bs x' l', x_tls (x_s x) = None ->
  xstep T M fuel x (ARead (Some (b :: bs))) = (x', l') -> no_loss l'.
Proof.
  intros x b bs x' l' H E. cbn [xstep] in E.
  destruct (reading (x_f x)); [|injection E as _ <-; intros r []].
  destruct (sync T M fuel _ (x_m x)) as [y k] eqn:S. injection E as _ <-.
  intros r [Hr|Hr]; [discriminate|]. eapply sync_no_loss; [|exact S|exact Hr]. exact H.
Qed.

Lemma cancel_no_ret : forall (x : xstate T M) x' l', xstep T M fuel x ACancel = (x', l') -> forall r, ~ In (XRet r) l'.
Proof.
  intros x x' l' E r Hr. cbn [xstep] in E. destruct (x_f x); injection E as _ <-; cbn in Hr; intuition discriminate.
Qed.
End Lost.

Section Proxy.
Context (K : Codecs) (T2 T3 : tls) (fuel : nat).
Notation SM := (server_machine K).
Notation CM := (client_machine K).
Definition keeps (l : list (plog K)) : Prop := forall e, In e l -> SpecProxy.loses e = false.

Lemma keeps_client : forall lx, no_loss SM lx -> keeps (map (@PlClient K) lx).
Proof. intros lx H e He. apply in_map_iff in He as (x & <- & Hx). destruct x; auto. now apply H. Qed.
Lemma keeps_server : forall lx, no_loss CM lx -> keeps (map (@PlServer K) lx).
Proof. intros lx H e He. apply in_map_iff in He as (x & <- & Hx). destruct x; auto. now apply H. Qed.
Lemma keeps_app : forall a b, keeps a -> keeps b -> keeps (a ++ b).
Proof. intros a b Ha Hb e He. apply in_app_or in He as [He|He]; auto. Qed.
Lemma keeps_one : forall e, @SpecProxy.loses K e = false -> keeps [e].
Proof. intros e H x [<-|[]]. exact H. Qed.
Hint Resolve keeps_client keeps_server keeps_app keeps_one : keeps.

Lemma client_side_keeps : forall c s a p l c1 lx, xstep T2 SM fuel c (io_act SM a) = (c1, lx) -> no_loss SM lx ->
  client_side K T2 T3 fuel c s a = (p, l) -> keeps l.
Proof.
  intros c s a p l c1 lx X N E. unfold client_side in E. rewrite X in E.
  destruct (is_dead (x_f c1)); [apply pair_equal_spec in E as [_ <-]; auto with keeps|].
  destruct (returned lx) as [r|]; [|apply pair_equal_spec in E as [_ <-]; auto with keeps].
  destruct (xstep T3 CM fuel s ACancel) as [s1 l2] eqn:C.
  assert (N2 : no_loss CM l2) by (intros r0 Hr; now apply (cancel_no_ret _ _ _ _ _ _ C) in Hr).
  destruct (handle_client_event K r) as [| |o u]; [apply pair_equal_spec in E as [_ <-]; auto 8 with keeps..|].
  destruct (m_call CM (x_m s1) o) as [[m e]|]; [destruct (u && c_call_failed e)|];
    apply pair_equal_spec in E as [_ <-]; repeat apply keeps_app; auto with keeps.
Qed.

Lemma server_side_keeps : forall c s a p l s1 lx, xstep T3 CM fuel s (io_act CM a) = (s1, lx) -> no_loss CM lx ->
  server_side K T2 T3 fuel c s a = (p, l) -> keeps l.
Proof.
  intros c s a p l s1 lx X N E. unfold server_side in E. rewrite X in E.
  destruct (is_dead (x_f s1)); [apply pair_equal_spec in E as [_ <-]; auto with keeps|].
  destruct (returned lx) as [r|]; [|apply pair_equal_spec in E as [_ <-]; auto with keeps].
  destruct (xstep T2 SM fuel c ACancel) as [c1 l2] eqn:C.
  assert (N2 : no_loss SM l2) by (intros r0 Hr; now apply (cancel_no_ret _ _ _ _ _ _ C) in Hr).
  destruct (handle_server_event K r) as [| |o u]; [apply pair_equal_spec in E as [_ <-]; auto 8 with keeps..|].
  destruct (m_call SM (x_m c1) o) as [[m e]|]; [destruct (u && s_call_failed e)|];
    apply pair_equal_spec in E as [_ <-]; repeat apply keeps_app; auto with keeps.
Qed.

Lemma greeting_side_keeps : forall gp c s a p l s1 lx, xstep T3 CM fuel s (io_act CM a) = (s1, lx) -> no_loss CM lx ->
  greeting_side K T2 T3 fuel gp c s a = (p, l) -> keeps l.
Proof.
  intros gp c s a p l s1 lx X N E. unfold greeting_side in E. rewrite X in E.
  destruct (is_dead (x_f s1)); [apply pair_equal_spec in E as [_ <-]; auto with keeps|].
  destruct (returned lx) as [r|]; [|apply pair_equal_spec in E as [_ <-]; auto with keeps].
  destruct r as [e| | | | |]; try destruct e; apply pair_equal_spec in E as [_ <-]; auto with keeps.
Qed.
End Proxy.

(** ** Steps without the applications *)

Section Ends.
Context (K : Codecs) (relaxed : bool) (o : soptions) (gr : greeting).
Notation SM := (server_machine K).
Notation CM := (client_machine K).
Notation RE := (@ends_orderly K relaxed o gr).

(** The applications of the client and of the server make no calls. *)
Definition idle_ends (l : list (rlog K)) : Prop :=
  (forall p r, ~ In (RC (@XCall CM p r)) l) /\ (forall p r, ~ In (RS (@XCall SM p r)) l).

Lemma idle_ends_app : forall a b, idle_ends a -> idle_ends b -> idle_ends (a ++ b).
Proof.
  intros a b [A1 A2] [B1 B2]. split; intros p r H; apply in_app_or in H as [H|H];
    [now apply A1 in H|now apply B1 in H|now apply A2 in H|now apply B2 in H].
Qed.

Lemma in_lefts_front : forall (l : list (rlog K)) e, In e (lefts (front l)) -> In (RC e) l.
Proof.
  induction l as [|x l IH]; intros e H; [contradiction|].
  destruct x as [x|x|x]; [|destruct x|]; cbn in H; try (right; now apply IH).
  destruct H as [->|H]; [now left|right; now apply IH].
Qed.
Lemma in_rights_back : forall (l : list (rlog K)) e, In e (rights (back l)) -> In (RS e) l.
Proof.
  induction l as [|x l IH]; intros e H; [contradiction|].
  destruct x as [x|x|x]; [|destruct x|]; cbn in H; try (right; now apply IH).
  destruct H as [->|H]; [now left|right; now apply IH].
Qed.

Lemma idle_left : forall l, idle_ends l -> forall e, In e (at_left l) -> exists r, e = ClNext r.
Proof.
  intros l [H _] e He. unfold at_left in He. rewrite clogs_app_log in He. apply in_flat_map in He as (x & Hx & He).
  apply in_lefts_front in Hx. destruct x as [p r| | | | | | |[]| | |]; cbn in He; try contradiction.
  - now apply H in Hx.
  - destruct He as [<-|[]]; eauto.
  - destruct He as [<-|[]]; eauto.
Qed.
Lemma idle_right : forall l, idle_ends l -> forall e, In e (at_right l) -> exists r, e = SlNext r.
Proof.
  intros l [_ H] e He. unfold at_right in He. rewrite slogs_app_log in He. apply in_flat_map in He as (x & Hx & He).
  apply in_rights_back in Hx. destruct x as [p r| | | | | | |[]| | |]; cbn in He; try contradiction.
  - now apply H in Hx.
  - destruct He as [<-|[]]; eauto.
  - destruct He as [<-|[]]; eauto.
Qed.

Lemma idle_enqueued : forall l, idle_ends l -> enqueued (at_left l) = [].
Proof.
  intros l H. pose proof (idle_left l H) as F. induction (at_left l) as [|e cl IH]; [reflexivity|].
  destruct (F e (or_introl eq_refl)) as [r ->]. cbn. apply IH. intros; apply F; now right.
Qed.
Lemma idle_scheduled : forall l, idle_ends l -> flat_map (scheduled_by o) (at_right l) = [].
Proof.
  intros l H. pose proof (idle_right l H) as F. induction (at_right l) as [|e cl IH]; [reflexivity|].
  destruct (F e (or_introl eq_refl)) as [r ->]. cbn. apply IH. intros; apply F; now right.
Qed.
Lemma idle_given : forall l, idle_ends l -> given (rights (back l)) = [].
Proof.
  intros l H. rewrite given_server. fold (at_right l).
  pose proof (idle_right l H) as F. induction (at_right l) as [|e cl IH]; [reflexivity|].
  destruct (F e (or_introl eq_refl)) as [r ->]. cbn. apply IH. intros; apply F; now right.
Qed.

Lemma right_app : forall a b : list (rlog K), at_right (a ++ b) = at_right a ++ at_right b.
Proof. intros. unfold at_right. now rewrite back_app, app_log_app, slogs_app. Qed.

Lemma idle_orderly : forall L l, RE L -> idle_ends l -> RE (L ++ l).
Proof.
  intros L l [H1 H2 H3 H4 H5 H6 H7 [H8 H8'] H9 H10] I.
  assert (Le : enqueued (at_left (L ++ l)) = enqueued (at_left L)).
  { now rewrite left_app, ClientInv.enqueued_app, (idle_enqueued l I), app_nil_r. }
  constructor; rewrite ?Le; auto.
  - intros m Hm. apply H1. unfold scheduled in *. rewrite right_app, flat_map_app, (idle_scheduled l I), app_nil_r in Hm.
    exact Hm.
  - intros d h Hd. apply (H3 d h). rewrite left_app in Hd. apply in_app_or in Hd as [Hd|Hd]; [exact Hd|].
    apply (idle_left l I) in Hd as [r Hd]. discriminate.
  - intros h Hd. apply (H4 h). rewrite left_app in Hd. apply in_app_or in Hd as [Hd|Hd]; [exact Hd|].
    apply (idle_left l I) in Hd as [r Hd]. discriminate.
  - rewrite right_app. apply polite_auto; [|exact H7]. intros e He. apply (idle_right l I) in He as [r ->]. exact Logic.I.
  - split; [exact H8|]. fold (at_left (L ++ l)). rewrite Le. exact H8'.
Qed.

Lemma idle_relayable : forall L l, relayable relaxed o gr L -> idle_ends l -> relayable relaxed o gr (L ++ l).
Proof.
  intros L l [H1 H2] I. split; [exact H1|]. intros r r' h P H. apply (H2 r r' h P).
  rewrite back_app, rights_app, given_more, (idle_given l I), app_nil_r in H.
  rewrite left_app, ClientInv.enqueued_app, (idle_enqueued l I), app_nil_r in H. exact H.
Qed.
End Ends.

Section Calm.
Context (K : Codecs) (relaxed : bool) (o : soptions) (gc gp gq gs : hgen) (gr : greeting)
  (T1 T2 T3 T4 : tls) (fuel : nat).
Notation CM := (client_machine K).
Notation SM := (server_machine K).
Notation rel := (relay K T1 T2 T3 T4).
Notation step := (relay_step K T1 T2 T3 T4 fuel gp).
Notation run := (relay_run K T1 T2 T3 T4 fuel gp).
Notation rreached := (rreached K relaxed o gc gp gq gs gr T1 T2 T3 T4 fuel).
Notation RE := (@ends_orderly K relaxed o gr).
Notation RO := (@relay_orderly K relaxed o gr).
Notation keeps := (keeps K).

Lemma idle_map_p : forall l, idle_ends K (map RP l).
Proof. intro l. split; intros p r H; apply in_map_iff in H as (x & E & _); discriminate. Qed.
Lemma idle_map_c : forall l, (forall p r, ~ In (@XCall CM p r) l) -> idle_ends K (map RC l).
Proof.
  intros l N. split; intros p r H; apply in_map_iff in H as (x & E & H); [|discriminate]. injection E as ->. now apply N in H.
Qed.
Lemma idle_map_s : forall l, (forall p r, ~ In (@XCall SM p r) l) -> idle_ends K (map RS l).
Proof.
  intros l N. split; intros p r H; apply in_map_iff in H as (x & E & H); [discriminate|]. injection E as ->. now apply N in H.
Qed.
Lemma idle_nil : idle_ends K [].
Proof. split; intros p r []. Qed.

Lemma calm_idle : forall z a z' l, relay_calm a -> step z a = (z', l) -> idle_ends K l.
Proof.
  intros z a z' l C E. destruct a as [a|a|a|n|n|n|n]; cbn -[xstep pstep proxy_acts] in E; cbn [relay_calm] in C.
  - destruct (conjures a); [injection E as _ <-; apply idle_nil|].
    destruct (xstep _ _ _ _ a) as [x k] eqn:S. injection E as _ <-. apply idle_map_c. eapply calm_no_calls; eauto.
  - destruct (conjures a); [injection E as _ <-; apply idle_nil|].
    destruct (xstep _ _ _ _ a) as [x k] eqn:S. injection E as _ <-. apply idle_map_s. eapply calm_no_calls; eauto.
  - destruct (conjures _); [injection E as _ <-; apply idle_nil|]. unfold proxy_acts in E.
    destruct (pstep _ _ _ _ _ _ _) as [p k]. injection E as _ <-. apply idle_map_p.
  - destruct (firstn n (r_in z)); [injection E as _ <-; apply idle_nil|].
    destruct (proxy_reading _ _ _ _ _); [|injection E as _ <-; apply idle_nil]. unfold proxy_acts in E.
    destruct (pstep _ _ _ _ _ _ _) as [p k]. injection E as _ <-. apply idle_map_p.
  - destruct (firstn n (r_out z)); [injection E as _ <-; apply idle_nil|].
    destruct (reading _); [|injection E as _ <-; apply idle_nil].
    destruct (xstep _ _ _ _ _) as [x k] eqn:S. injection E as _ <-. apply idle_map_c. eapply read_no_calls; eauto.
  - destruct (firstn n (r_up z)); [injection E as _ <-; apply idle_nil|].
    destruct (reading _); [|injection E as _ <-; apply idle_nil].
    destruct (xstep _ _ _ _ _) as [x k] eqn:S. injection E as _ <-. apply idle_map_s. eapply read_no_calls; eauto.
  - destruct (firstn n (r_down z)); [injection E as _ <-; apply idle_nil|].
    destruct (proxy_reading _ _ _ _ _); [|injection E as _ <-; apply idle_nil]. unfold proxy_acts in E.
    destruct (pstep _ _ _ _ _ _ _) as [p k]. injection E as _ <-. apply idle_map_p.
Qed.

Hypothesis NT : no_trailing K relaxed.
Hypothesis NP : no_trailing K false.
Hypothesis SL : single_lines K.
Hypothesis SP : sno_trailing K proxy_soptions.
Hypothesis ST : sno_trailing K o.

(** The proxy's streams, without TLS. *)
Lemma proxy_plain : forall z L, rreached z L ->
  match r_proxy z with
  | PsGreeting _ s => x_tls (x_s s) = None
  | PsLoop c s => x_tls (x_s c) = None /\ x_tls (x_s s) = None
  | PsEnd _ => True
  end.
Proof.
  intros z L R. apply rreached_legs in R. unfold legs in R.
  destruct (r_proxy z) as [c s|c s|why]; [| |exact Logic.I].
  - destruct R as (_ & _ & _ & _ & _ & B).
    exact (proj1 (good_left K _ _ _ (bran_good K o gq gs gr T3 T4 fuel NP SL ST _ _ B))).
  - destruct R as (_ & _ & (g & _ & F) & B).
    split; [exact (proj1 (good_right K _ _ _ (fran_good K relaxed gc gp T1 T2 fuel NT SL SP _ _ _ F)))|].
    exact (proj1 (good_left K _ _ _ (bran_good K o gq gs gr T3 T4 fuel NP SL ST _ _ B))).
Qed.

Lemma pstep_keeps : forall z L d a p l, rreached z L ->
  io_calm a \/ (exists b bs, a = IoRead (Some (b :: bs))) ->
  pstep K T2 T3 fuel gp (r_proxy z) (d, a) = (p, l) -> keeps l.
Proof.
  intros z L d a p l R C E. apply proxy_plain in R.
  assert (N : forall T M (x : xstate T M) x' k, x_tls (x_s x) = None -> xstep T M fuel x (io_act M a) = (x', k) -> no_loss M k).
  { intros T M x x' k H X. destruct C as [C|(b & bs & ->)]; [|eapply read_no_loss; eauto].
    eapply calm_no_loss; [exact H| |exact X]. destruct a as [|r|[[|n]|]]; try contradiction; exact Logic.I. }
  assert (Nil : keeps []) by (intros e []).
  destruct (r_proxy z) as [c s|c s|why]; destruct d; cbn [pstep] in E;
    try (apply pair_equal_spec in E as [_ <-]; exact Nil).
  - destruct (xstep T3 CM fuel s (io_act CM a)) as [s1 lx] eqn:X.
    eapply greeting_side_keeps; [exact X| |exact E]. exact (N _ _ _ _ _ R X).
  - destruct R as [R1 R2]. destruct (xstep T3 CM fuel s (io_act CM a)) as [s1 lx] eqn:X.
    eapply server_side_keeps; [exact X| |exact E]. exact (N _ _ _ _ _ R2 X).
  - destruct R as [R1 R2]. destruct (xstep T2 SM fuel c (io_act SM a)) as [c1 lx] eqn:X.
    eapply client_side_keeps; [exact X| |exact E]. exact (N _ _ _ _ _ R1 X).
Qed.

Lemma calm_keeps : forall z L a z' l, rreached z L -> relay_calm a -> step z a = (z', l) -> keeps (middle l).
Proof.
  intros z L a z' l R C E. assert (Nil : keeps (@middle K [])) by (intros e []).
  destruct a as [a|a|a|n|n|n|n]; cbn -[xstep pstep proxy_acts] in E; cbn [relay_calm] in C.
  - destruct (conjures a); [injection E as _ <-; exact Nil|].
    destruct (xstep _ _ _ _ a) as [x k]. injection E as _ <-. rewrite middle_c. exact Nil.
  - destruct (conjures a); [injection E as _ <-; exact Nil|].
    destruct (xstep _ _ _ _ a) as [x k]. injection E as _ <-. rewrite middle_s. exact Nil.
  - destruct (conjures _); [injection E as _ <-; exact Nil|]. unfold proxy_acts in E. destruct a as [d a].
    destruct (pstep _ _ _ _ _ _ _) as [p k] eqn:S. injection E as _ <-. rewrite middle_p.
    eapply pstep_keeps; [exact R| |exact S]. now left.
  - destruct (firstn n (r_in z)); [injection E as _ <-; exact Nil|].
    destruct (proxy_reading _ _ _ _ _); [|injection E as _ <-; exact Nil]. unfold proxy_acts in E. cbn [r_proxy] in E.
    destruct (pstep _ _ _ _ _ _ _) as [p k] eqn:S. injection E as _ <-. rewrite middle_p.
    eapply pstep_keeps; [exact R| |exact S]. right. eauto.
  - destruct (firstn n (r_out z)); [injection E as _ <-; exact Nil|].
    destruct (reading _); [|injection E as _ <-; exact Nil].
    destruct (xstep _ _ _ _ _) as [x k]. injection E as _ <-. rewrite middle_c. exact Nil.
  - destruct (firstn n (r_up z)); [injection E as _ <-; exact Nil|].
    destruct (reading _); [|injection E as _ <-; exact Nil].
    destruct (xstep _ _ _ _ _) as [x k]. injection E as _ <-. rewrite middle_s. exact Nil.
  - destruct (firstn n (r_down z)); [injection E as _ <-; exact Nil|].
    destruct (proxy_reading _ _ _ _ _); [|injection E as _ <-; exact Nil]. unfold proxy_acts in E. cbn [r_proxy] in E.
    destruct (pstep _ _ _ _ _ _ _) as [p k] eqn:S. injection E as _ <-. rewrite middle_p.
    eapply pstep_keeps; [exact R| |exact S]. right. eauto.
Qed.

Lemma calm_run : forall acts z L z' L', rreached z L -> Forall (@relay_calm K) acts -> run z acts = (z', L') ->
  rreached z' (L ++ L') /\ idle_ends K L' /\ keeps (middle L').
Proof.
  induction acts as [|a acts IH]; intros z L z' L' R C E; cbn -[relay_step] in E.
  - injection E as <- <-. rewrite app_nil_r. split; [exact R|]. split; [apply idle_nil|intros e []].
  - destruct (step z a) as [z1 l1] eqn:S. destruct (run z1 acts) as [z2 l2] eqn:E2. injection E as <- <-.
    inversion C as [|? ? C1 C2]; subst.
    assert (R1 : rreached z1 (L ++ l1)) by (eapply rreached_step; [exact R|exact S]).
    destruct (IH _ _ _ _ R1 C2 E2) as (R' & I & Kp).
    rewrite app_assoc. split; [exact R'|]. split; [apply idle_ends_app; [eapply calm_idle; eauto|exact I]|].
    rewrite middle_app. apply keeps_app; [exact (calm_keeps _ _ _ _ _ R C1 S)|exact Kp].
Qed.

Lemma rreached_relays : forall z L, rreached z L -> relays relaxed o gc gp gq gs gr T1 T2 T3 T4 z L.
Proof.
  intros z L [acts E]. eapply relays_intro; [exact E|now apply linked_plain|now apply linked_plain].
Qed.
Lemma rreached_passed : forall z L, rreached z L -> RE L -> relayable relaxed o gr L -> RO L.
Proof.
  intros z L [acts E] H1 H2. eapply relay_passed; [exact E|now apply linked_plain|now apply linked_plain|exact H1|exact H2].
Qed.

Lemma plain_no_hang : forall z L, rreached z L ->
  ~ In (PlClient XHang) (middle L) /\ ~ In (PlServer XHang) (middle L).
Proof.
  intros z L R. apply rreached_legs in R. destruct (legs_legs _ _ _ _ _ _ _ _ _ _ _ _ _ _ _ R) as ((g & c & [a1 F]) & (s & [a2 B])).
  split; intro H.
  - destruct (net_projects _ _ _ _ _ _ _ _ _ _ _ _ F) as [_ [a X]]. apply plain_alive in X as [X _]. apply X.
    rewrite front_rights. clear - H. induction (middle L) as [|x l IH]; [contradiction|].
    destruct H as [->|H]; [now left|]. destruct x; cbn; auto.
  - destruct (net_projects _ _ _ _ _ _ _ _ _ _ _ _ B) as [[a X] _]. apply plain_alive in X as [X _]. apply X.
    rewrite back_lefts. clear - H. induction (middle L) as [|x l IH]; [contradiction|].
    destruct H as [->|H]; [now left|]. destruct x; cbn; auto.
Qed.

(** When nothing can happen, the proxy has the greeting, and all is at rest. *)
Lemma quiet_rest : forall z L, rreached z L -> RO L -> existsb (@SpecProxy.loses K) (middle L) = false ->
  relay_quiet z -> relay_at_rest T1 T2 T3 T4 z.
Proof.
  intros z L R Ro Nl (Q1 & Q2 & Q3 & Q4 & Q5). unfold relay_at_rest.
  pose proof (rreached_relays _ _ R) as Ry.
  destruct (r_proxy z) as [c s|c s|why] eqn:Ep.
  - exfalso. destruct Q5 as [Q5 Q6].
    pose proof R as [acts E].
    destruct (relay_inv _ _ _ _ _ _ _ _ _ _ _ _ _ _ _ _ _ _ _ _ E) as [HL (_ & _ & _ & I)].
    { split; [now apply linked_plain|]. split; [now apply linked_plain|exact Ro]. }
    rewrite Ep in I. destruct I as [_ I].
    destruct (relay_facts _ _ _ _ _ _ _ _ _ _ _ _ _ _ Ry Ro) as (_ & _ & _ & _ & _ & O3 & O4 & _).
    unfold legs in HL. rewrite Ep in HL. destruct HL as (_ & _ & _ & _ & _ & [a2 B]).
    assert (Tb : @talk K false o gq gs gr T3 T4 (bnet K T1 T2 T3 T4 z s) (back L)) by (eapply talk_plain; exact B).
    assert (Rb : at_rest (bnet K T1 T2 T3 T4 z s)) by (unfold at_rest; cbn; auto).
    destruct (talk_rest _ _ _ _ _ _ _ _ _ _ Tb Rb O3 O4) as (acts' & y & l & Y & W & O & E1 & _).
    pose proof W as (_ & _ & (c' & Wc) & _).
    destruct (waiting_rest _ _ _ _ _ _ _ _ _ Y O c' W Wc) as (a & x & rd & items & pre1 & G & Rr & cs & RS).
    pose proof (re_steps _ _ _ _ _ _ _ _ _ _ _ _ _ _ _ _ _ RS) as St.
    apply zsteps_asteps in St. apply ClientProps.asteps_greetedb in St. cbn [z_a] in St.
    rewrite (re_greeted _ _ _ _ _ _ _ _ _ _ _ _ _ _ _ _ _ RS) in St. symmetry in St.
    apply ClientProps.greetedb_spec in St as [g Hg].
    assert (Ev : events (clogs l) = []).
    { rewrite <- shown_events, <- shown_clogs, <- E1. fold (at_out L). now rewrite I. }
    rewrite clogs_app, ClientInv.events_app, Ev in Hg. contradiction.
  - destruct Q5 as (Q5 & Q6 & Q7 & Q8). auto 10.
  - exfalso. destruct (plain_no_hang _ _ R) as [H1 H2].
    destruct (relay_ends _ _ _ _ _ _ _ _ _ _ _ _ _ _ Ry Ro NP SL SP H1 H2 why Ep) as [_ H]. congruence.
Qed.

(** What a continuation without the applications keeps. *)
Lemma calm_facts : forall z L acts z' L', rreached z L -> RE L -> relayable relaxed o gr L ->
  existsb (@SpecProxy.loses K) (middle L) = false -> Forall (@relay_calm K) acts -> run z acts = (z', L') ->
  rreached z' (L ++ L') /\ RO (L ++ L') /\ existsb (@SpecProxy.loses K) (middle (L ++ L')) = false /\
  (forall e, In e (at_left L') -> exists r, e = ClNext r) /\ (forall e, In e (at_right L') -> exists r, e = SlNext r).
Proof.
  intros z L acts z' L' R E1 E2 E3 C E. destruct (calm_run _ _ _ _ _ R C E) as (R' & I & Kp).
  split; [exact R'|]. split; [apply (rreached_passed _ _ R'); [now apply idle_orderly|now apply idle_relayable]|].
  split; [|split; [now apply idle_left|now apply idle_right]].
  rewrite middle_app, existsb_app, E3. cbn [orb].
  destruct (existsb _ (middle L')) eqn:X; [|reflexivity]. apply existsb_exists in X as (e & He & X).
  now rewrite (Kp e He) in X.
Qed.

Lemma rest_quiet : forall z, relay_at_rest T1 T2 T3 T4 z -> @relay_quiet K T1 T2 T3 T4 z.
Proof.
  intros z (H1 & H2 & H3 & H4 & H5 & H6 & H7). unfold relay_quiet.
  destruct (r_proxy z) as [c s|c s|why]; [contradiction| |contradiction]. destruct H7. auto 10.
Qed.

Lemma rest_iff : forall z L, rreached z L -> RE L -> relayable relaxed o gr L ->
  existsb (@SpecProxy.loses K) (middle L) = false ->
  (relay_at_rest T1 T2 T3 T4 z <-> forall z', ~ relay_moves fuel gp z' z).
Proof.
  intros z L R E1 E2 E3. split.
  - intros H z' M. apply (quiet_still K gp T1 T2 T3 T4 fuel z (rest_quiet z H)). now exists z'.
  - intro H. pose proof (ro_size _ _ _ _ E1) as Hm.
    destruct (quiet_or_moves K relaxed o gc gp gq gs gr T1 T2 T3 T4 fuel NT NP SL SP ST z L R) as [Q|[z' M]].
    + apply (quiet_rest z L R); auto. now apply (rreached_passed z L R).
    + now apply H in M.
Qed.

Lemma settles : forall z L, rreached z L -> RE L -> relayable relaxed o gr L ->
  existsb (@SpecProxy.loses K) (middle L) = false ->
  exists acts z' L', Forall (@relay_calm K) acts /\ run z acts = (z', L') /\ relay_at_rest T1 T2 T3 T4 z'.
Proof.
  intros z L R E1 E2 E3. pose proof (ro_size _ _ _ _ E1) as Hm.
  destruct (relay_settles K relaxed o gc gp gq gs gr T1 T2 T3 T4 fuel NT NP SL SP ST Hm z L R) as (acts & z' & L' & C & E & Q).
  exists acts, z', L'. split; [exact C|]. split; [exact E|].
  destruct (calm_facts _ _ _ _ _ R E1 E2 E3 C E) as (R' & O & N & _). exact (quiet_rest _ _ R' O N Q).
Qed.

Lemma settled_delivered : forall z L acts z' L', rreached z L -> RE L -> relayable relaxed o gr L ->
  existsb (@SpecProxy.loses K) (middle L) = false ->
  (forall h c, In (h, c) (enqueued (at_left L)) ->
     lits_fit proxy_soptions (enc_command K c) /\ lits_fit o (enc_command K c)) ->
  Forall (@relay_calm K) acts -> run z acts = (z', L') -> (forall z'', ~ relay_moves fuel gp z'' z') ->
  sreports (at_right (L ++ L')) = map (fun q => IEvent (request_event q)) (requests (at_left (L ++ L'))) /\
  Forall2 passed (given (rights (back L))) (reported_all (events (at_left (L ++ L')))) /\
  (exists g, greetings (events (at_left (L ++ L'))) = [g] /\ SpecProxy.greeting_reduced gr g) /\
  (forall h c, oldest (at_left (L ++ L')) = Some (h, c) -> ~ regular c).
Proof.
  intros z L acts z' L' R E1 E2 E3 Fit C E St.
  destruct (calm_run _ _ _ _ _ R C E) as (R' & I & _).
  destruct (calm_facts _ _ _ _ _ R E1 E2 E3 C E) as (_ & O & N & _).
  assert (Rs : relay_at_rest T1 T2 T3 T4 z').
  { apply (rest_iff z' (L ++ L') R'); auto; [apply O|now apply idle_relayable]. }
  pose proof (rreached_relays _ _ R') as Ry.
  assert (Fit' : forall h c, In (h, c) (enqueued (at_left (L ++ L'))) ->
     lits_fit proxy_soptions (enc_command K c) /\ lits_fit o (enc_command K c)).
  { rewrite left_app, ClientInv.enqueued_app, (idle_enqueued K L' I), app_nil_r. exact Fit. }
  destruct (relay_rest_delivered _ _ _ _ _ _ _ _ _ _ _ _ _ _ Ry O Fit' Rs) as [D1 D2].
  split; [exact D1|].
  split; [|split; [exists (filter_greeting gr); split; [exact (relay_rest_greeted _ _ _ _ _ _ _ _ _ _ _ _ _ _ Ry O Rs)|apply ProxyFilter.filter_greeting_reduced]|exact (relay_rest_oldest _ _ _ _ _ _ _ _ _ _ _ _ _ _ Ry O Rs)]].
  rewrite back_app, rights_app, given_more, (idle_given K L' I), app_nil_r in D2. exact D2.
Qed.
End Calm.
