(** Between an orderly client and an orderly server, both legs of the proxy are orderly. *)
From Coq Require Import List NArith Bool PeanoNat Lia.
From Verif Require Import Base Types Codec Handle Receive ClientSend Client ServerSend Server
  SpecFraming SpecClient SpecServer System SystemAbs SpecSystem SpecSystemLive SystemLog SpecViews SystemViews
  Stream StreamMachine SpecStream Net SpecNet NetProofs NetApp NetThms NetViews ProxyEffect ClientFit RelayFit
  ProxyUtil Proxy Relay SpecRelay RelayProofs RelayTalk RelayGlue RelayInv RelayOrder RelaySteps.
From Verif Require ClientInv SpecProxy ProxyRuns.
Import ListNotations.

(** ** What the server reports was requested *)

Definition ires_request (r : s_ires) : list request :=
  match r with IEvent e => event_request e | _ => [] end.

Lemma told_reports : forall l, told l = flat_map ires_request (sreports l).
Proof.
  intro l. unfold told, sreports. induction l as [|e l IH]; [reflexivity|]. cbn [flat_map].
  destruct e as [| | | | | | |r|]; cbn [entry_request app sresults]; try exact IH.
  cbn [filter]. destruct (is_report r) eqn:E; cbn [flat_map]; rewrite IH.
  - now destruct r.
  - destruct r as [[]| | | | | |]; cbn in E; try discriminate; reflexivity.
Qed.

Lemma event_of_request : forall q, event_request (request_event q) = [q].
Proof.
  intros [[t b]|d|]; cbn; [|reflexivity..]. unfold command_event. cbn. destruct b; reflexivity.
Qed.

Lemma cmds_cons : forall q qs,
  cmds (q :: qs) = match q with RqCommand c => c :: cmds qs | _ => cmds qs end.
Proof. now intros [] qs. Qed.

Lemma in_cmds : forall c qs, In c (cmds qs) <-> In (RqCommand c) qs.
Proof.
  intros c qs. unfold cmds. rewrite in_flat_map. split.
  - intros (q & H & Hc). destruct q; [destruct Hc as [->|[]]; exact H|contradiction..].
  - intro H. eexists. split; [exact H|]. now left.
Qed.

Lemma told_requested : forall K o took rd, Forall2 (read_as K o) took rd ->
  let t := flat_map (fun p => ires_request (sresult (fst p) (snd p))) took in
  (forall q, In q t -> In q rd) /\
  (NoDup (map ctag (cmds rd)) -> NoDup (map ctag (cmds t))).
Proof.
  intros K o took rd H t. subst t. induction H as [|p q took rd H0 H IH]; [cbn; auto|].
  destruct IH as [IH1 IH2]. cbn [flat_map].
  set (t := flat_map (fun p => ires_request (sresult (fst p) (snd p))) took) in *.
  assert (Ht : ires_request (sresult (fst p) (snd p)) = [q] \/ ires_request (sresult (fst p) (snd p)) = []).
  { destruct H0; cbn; auto; left; [apply (event_of_request (RqCommand c))|reflexivity..]. }
  destruct Ht as [-> | ->]; cbn [app].
  - split; [intros x [->|Hx]; [now left|right; auto]|].
    rewrite !cmds_cons. destruct q as [c|d|]; auto. cbn [map].
    intro N. inversion N as [|x xs N1 N2]; subst. constructor; [|auto].
    intro Hin. apply N1. apply in_map_iff in Hin as (c' & E & Hin). apply in_map_iff. exists c'. split; [exact E|].
    rewrite in_cmds in *. auto.
  - split; [intros x Hx; right; auto|]. rewrite cmds_cons.
    intro N. apply IH2. destruct q; auto. now inversion N.
Qed.

(** The requests are those of the client. *)
Definition made (cl : list clog) (q : request) : Prop :=
  match q with
  | RqCommand c => exists h, In (h, c) (enqueued cl)
  | RqData d => exists h, In (ClSetAuth d (inl h)) cl
  | RqDone => exists h, In (ClSetDone (Some h)) cl
  end.

Lemma in_segment : forall l k e, In e (segment k l) -> In e l.
Proof.
  induction l as [|x l IH]; intros k e H; [contradiction|]. cbn in H.
  destruct (ends_segment x); destruct k; cbn in H |- *; try destruct H as [H|H]; eauto. contradiction.
Qed.

Lemma requests_made : forall l q, In q (requests l) -> made l q.
Proof.
  intros l q H. unfold requests in H. apply in_flat_map in H as (k & _ & H). unfold segment_requests in H.
  destruct (nth_error (enqueued l) k) as [[h c]|] eqn:N; [|contradiction].
  destruct H as [<-|H]; [exists h; eapply nth_error_In; eauto|].
  assert (G : forall l', (forall e, In e l' -> In e l) -> In q (answers (exchange l')) -> made l q).
  { clear. induction l' as [|e l' IH]; intros Q H; [contradiction|].
    assert (Q' : forall e, In e l' -> In e l) by (intros; apply Q; now right).
    destruct e as [| |d [h|]|[h|]| |[[]| | | | | |]|]; cbn in H; auto.
    - destruct H as [<-|H]; [|auto]. exists h. apply Q. now left.
    - destruct H as [<-|H]; [|auto]. exists h. apply Q. now left. }
  apply (G (segment k l)); [intro; apply in_segment|exact H].
Qed.


Lemma enqueued_calls : forall l, map snd (enqueued l) = cmds (calls l).
Proof.
  intro l. unfold calls, cmds. induction l as [|e l IH]; [reflexivity|]. cbn [flat_map]. rewrite flat_map_app, <- IH.
  destruct e as [| |d []|[]| |[]|]; reflexivity.
Qed.

(** What the [Client] of the proxy is asked to send, the client has requested. *)
Definition backed (cf cb : list clog) : Prop :=
  (forall q, In q (calls cb) -> made cf q) /\ NoDup (map ctag (cmds (calls cb))).

Lemma NoDup_prefix : forall {A} (a b : list A), NoDup (a ++ b) -> NoDup a.
Proof.
  intros A a. induction a as [|x a IH]; intros b N; [constructor|]. inversion N as [|y ys N1 N2]; subst.
  constructor; [intro; apply N1; apply in_or_app; now left|eauto].
Qed.

Section Legs.
Context (K : Codecs) (relaxed : bool) (o : soptions) (gc gs : hgen) (gr : greeting) (T1 T2 : tls).

Lemma leg_backed : forall z L cb rest, @talk K relaxed o gc gs gr T1 T2 z L ->
  orderly K relaxed o gr (app_log L) -> own_roundtrips K relaxed o (app_log L) ->
  told (slogs (app_log L)) = calls cb ++ rest -> backed (clogs (app_log L)) cb.
Proof.
  intros z L cb rest Tk Ord Own Ht.
  destruct (net_exchange K relaxed o gc gs gr T1 T2 z L Tk Ord Own) as (took & rd & more & Hr & Hf & Hs & _).
  rewrite told_reports, Hs in Ht.
  assert (Em : flat_map ires_request (map (fun p => sresult (fst p) (snd p)) took) =
    flat_map (fun p => ires_request (sresult (fst p) (snd p))) took).
  { clear. induction took as [|p took IH]; [reflexivity|]. cbn. now rewrite IH. }
  rewrite Em in Ht. destruct (told_requested K o took rd Hf) as [T1' T2']. rewrite Ht in T1', T2'. split.
  - intros q Hq. apply requests_made. rewrite Hr. apply in_or_app. left. apply T1'. apply in_or_app. now left.
  - unfold cmds in T2'. rewrite flat_map_app, map_app in T2'. eapply NoDup_prefix, T2'.
    destruct (net_cmds K relaxed o gc gs gr T1 T2 z L Tk Ord Own) as (r2 & E).
    pose proof (or_tags _ _ _ _ _ Ord) as N. rewrite <- (map_map snd ctag), E, Hr in N.
    unfold cmds in N. rewrite flat_map_app, !map_app, <- app_assoc in N. eapply NoDup_prefix, N.
Qed.
End Legs.

(** ** The assumptions hold at the legs *)

Section Relay.
Context (K : Codecs) (T1 T2 T3 T4 : tls) (fuel : nat).
Context (s1 : stream T1) (s2 : stream T2) (s3 : stream T3) (s4 : stream T4).
Context (relaxed : bool) (o : soptions) (gc gp gq gs : hgen) (gr : greeting).
Notation SM := (server_machine K).
Notation CM := (client_machine K).
Notation step := (relay_step K T1 T2 T3 T4 fuel gp).
Notation run := (relay_run K T1 T2 T3 T4 fuel gp).
Notation start := (relay_new K T1 T2 T3 T4 s1 s2 s3 s4 relaxed o gc gq gs gr).
Notation legs := (legs K T1 T2 T3 T4 fuel s1 s2 s3 s4 relaxed o gc gp gq gs gr).
Notation RE := (@ends_orderly K relaxed o gr).
Notation RO := (@relay_orderly K relaxed o gr).

Lemma app_log_app : forall a b : list (nlog CM SM), app_log (a ++ b) = app_log a ++ app_log b.
Proof. intros. apply flat_map_app. Qed.

Lemma left_app : forall a b : list (rlog K), at_left (a ++ b) = at_left a ++ at_left b.
Proof. intros. unfold at_left. now rewrite front_app, app_log_app, clogs_app. Qed.
Lemma right_app : forall a b : list (rlog K), at_right (a ++ b) = at_right a ++ at_right b.
Proof. intros. unfold at_right. now rewrite back_app, app_log_app, slogs_app. Qed.
Lemma in_log_app : forall a b : list (rlog K), at_in (a ++ b) = at_in a ++ at_in b.
Proof. intros. unfold at_in. now rewrite front_app, app_log_app, slogs_app. Qed.
Lemma out_log_app : forall a b : list (rlog K), at_out (a ++ b) = at_out a ++ at_out b.
Proof. intros. unfold at_out. now rewrite back_app, app_log_app, clogs_app. Qed.

Lemma at_in_saw : forall L : list (rlog K), at_in L = saw K (middle L).
Proof. intro L. unfold at_in, saw. now rewrite slogs_app_log, front_rights. Qed.
Lemma at_out_caw : forall L : list (rlog K), at_out L = caw K (middle L).
Proof. intro L. unfold at_out, caw. now rewrite clogs_app_log, back_lefts. Qed.

Lemma in_scheduled_app : forall o' g (x y : list slog) m, In m (scheduled o' g x) -> In m (scheduled o' g (x ++ y)).
Proof. intros o' g x y m [H|H]; [now left|right]. rewrite flat_map_app. apply in_or_app. now left. Qed.

Lemma re_app : forall a b, RE (a ++ b) -> RE a.
Proof.
  intros a b [H1 H3 H4 H5 H6 H7 H8 H9 H10 H11].
  rewrite left_app in *. rewrite right_app in *.
  pose proof in_scheduled_app as S.
  rewrite ClientInv.enqueued_app in *.
  assert (En : forall x, In x (enqueued (at_left a)) -> In x (enqueued (at_left a) ++ enqueued (at_left b)))
    by (intros; apply in_or_app; now left).
  assert (Il : forall x, In x (at_left a) -> In x (at_left a ++ at_left b)) by (intros; apply in_or_app; now left).
  constructor; eauto.
  - rewrite map_app in H7. eapply NoDup_prefix; eauto.
  - intros l1 e l2 E. apply (H8 l1 e (l2 ++ at_right b)). rewrite E, <- app_assoc. reflexivity.
  - destruct H9 as [H9 H9']. split; [exact H9|]. intros h c Hin. apply (H9' h c).
    rewrite front_app, app_log_app, clogs_app, ClientInv.enqueued_app. apply in_or_app. now left.
Qed.

Lemma ro_app : forall a b, RO (a ++ b) -> RO a.
Proof.
  intros a b [H1 H2]. constructor; [eapply re_app; eauto|]. intros m Hm. apply H2. rewrite in_log_app.
  now apply in_scheduled_app.
Qed.

Lemma ro_front_orderly : forall L, RO L -> polite (at_in L) ->
  orderly K relaxed proxy_soptions (filter_greeting gr) (app_log (front L)) /\
  own_roundtrips K relaxed proxy_soptions (app_log (front L)).
Proof.
  intros L [[H1 H3 H4 H5 H6 H7 H8 H9 H10 H11] H2] P. split; [|exact H9]. constructor; auto.
  - intros h c Hin. destruct (H3 h c Hin) as (Q1 & Q2 & _). now split.
  - intros d h Hin. destruct (H4 d h Hin) as (Q1 & Q2 & _). now split.
  - intros h Hin. destruct (H5 h Hin) as (Q1 & Q2 & _). now split.
  - reflexivity.
Qed.

Lemma in_calls : forall l e q, In e l -> call_request e = [q] -> In q (calls l).
Proof. intros l e q H E. apply in_flat_map. exists e. split; [exact H|]. rewrite E. now left. Qed.
Lemma in_enqueued : forall l h c, In (h, c) (enqueued l) -> In (RqCommand c) (calls l).
Proof.
  intros l h c H. induction l as [|e l IH]; [contradiction|].
  unfold calls. cbn [flat_map]. apply in_or_app.
  destruct e; cbn in H; try (right; apply IH; exact H).
  destruct H as [H|H]; [injection H as <- <-; left; now left|right; now apply IH].
Qed.

Lemma re_back_orderly : forall L, RE L -> backed (at_left L) (at_out L) ->
  orderly K false o gr (app_log (back L)) /\ own_roundtrips K false o (app_log (back L)).
Proof.
  intros L [H1 H3 H4 H5 H6 H7 H8 H9 H10 H11] [B1 B2].
  assert (C : forall h c, In (h, c) (enqueued (at_out L)) -> exists h', In (h', c) (enqueued (at_left L))).
  { intros h c Hin. apply in_enqueued in Hin. exact (B1 _ Hin). }
  split.
  - constructor; auto.
    + intros h c Hin. apply C in Hin as [h' Hin]. destruct (H3 h' c Hin) as (Q1 & _ & Q2). now split.
    + intros d h Hin. apply (in_calls _ _ (RqData d)) in Hin; [|reflexivity].
      apply B1 in Hin as [h' Hin]. destruct (H4 d h' Hin) as (Q1 & _ & Q2). now split.
    + intros h Hin. apply (in_calls _ _ RqDone) in Hin; [|reflexivity].
      apply B1 in Hin as [h' Hin]. destruct (H5 h' Hin) as (Q1 & _ & Q2). now split.
    + rewrite <- (map_map snd ctag). change (clogs (app_log (back L))) with (at_out L). now rewrite enqueued_calls.
  - split; [exact H10|]. intros h c Hin. apply C in Hin as [h' Hin]. eauto.
Qed.
Lemma ro_back_orderly : forall L, RO L -> backed (at_left L) (at_out L) ->
  orderly K false o gr (app_log (back L)) /\ own_roundtrips K false o (app_log (back L)).
Proof. intros L [R _]. now apply re_back_orderly. Qed.
End Relay.

(** ** The runs *)

Lemma greeted_event : forall K (L : list (rlog K)) g, ProxyRuns.greeted_with K (middle L) g ->
  In (CeGreetingReceived g) (events (at_out L)).
Proof.
  intros K L g [es E]. rewrite at_out_caw. unfold caw.
  assert (H : forall (l : list (plog K)) e, In e (SpecProxy.server_events l) ->
    In e (events (flat_map client_app (SpecProxy.at_server l)))).
  { clear. induction l as [|[x|x| |] l IH]; intros e He; [contradiction|now apply IH| |now apply IH..].
    cbn [SpecProxy.at_server flat_map]. rewrite ClientInv.events_app. apply in_or_app.
    destruct x; cbn [SpecProxy.server_events] in He; try (right; now apply IH).
    destruct r; try (right; now apply IH). destruct He as [<-|He]; [left; now left|right; now apply IH]. }
  apply H. rewrite E. now left.
Qed.

Section Main.
Context (K : Codecs) (T1 T2 T3 T4 : tls) (fuel : nat).
Context (s1 : stream T1) (s2 : stream T2) (s3 : stream T3) (s4 : stream T4).
Context (relaxed : bool) (o : soptions) (gc gp gq gs : hgen) (gr : greeting).
Notation SM := (server_machine K).
Notation CM := (client_machine K).
Notation step := (relay_step K T1 T2 T3 T4 fuel gp).
Notation run := (relay_run K T1 T2 T3 T4 fuel gp).
Notation start := (relay_new K T1 T2 T3 T4 s1 s2 s3 s4 relaxed o gc gq gs gr).
Notation legs := (legs K T1 T2 T3 T4 fuel s1 s2 s3 s4 relaxed o gc gp gq gs gr).
Notation RE := (@ends_orderly K relaxed o gr).
Notation RO := (@relay_orderly K relaxed o gr).
Notation fine L := (linked s1 s2 (front L) /\ linked s3 s4 (back L) /\ RO L).
Notation front_talk n L := (@talk K relaxed proxy_soptions gc gp (filter_greeting gr) T1 T2 n (front L)).
Notation back_talk n L := (@talk K false o gq gs gr T3 T4 n (back L)).

Lemma leg_back : forall z L, legs z L -> linked s3 s4 (back L) -> exists n, back_talk n L.
Proof.
  intros z L H Lk. unfold RelayProofs.legs in H.
  destruct (r_proxy z) as [c s|c s|why].
  - destruct H as (_ & _ & _ & _ & _ & H). eexists. eapply linked_talk; eauto.
  - destruct H as (_ & _ & _ & H). eexists. eapply linked_talk; eauto.
  - destruct H as (_ & s & H). eexists. eapply linked_talk; eauto.
Qed.
Lemma leg_front : forall z L, legs z L -> linked s1 s2 (front L) ->
  (forall g, ProxyRuns.greeted_with K (middle L) g -> g = gr) -> exists n, front_talk n L.
Proof.
  intros z L H Lk G. unfold RelayProofs.legs in H.
  destruct (r_proxy z) as [c s|c s|why].
  - destruct H as (_ & _ & _ & _ & H & _). eexists. eapply linked_talk; [apply (H gr)|exact Lk].
  - destruct H as (_ & _ & (g & Hg & H) & _). apply G in Hg. subst g. eexists. eapply linked_talk; eauto.
  - destruct H as ([(_ & H)|(g & c & Hg & H)] & _).
    + destruct (H gr) as [c Hc]. eexists. eapply linked_talk; eauto.
    + apply G in Hg. subst g. eexists. eapply linked_talk; eauto.
Qed.

Lemma leg_nets : forall z L c s, legs z L -> r_proxy z = PsLoop c s ->
  linked s1 s2 (front L) -> linked s3 s4 (back L) ->
  (forall g, ProxyRuns.greeted_with K (middle L) g -> g = gr) ->
  front_talk (fnet K T1 T2 T3 T4 z c) L /\ back_talk (bnet K T1 T2 T3 T4 z s) L.
Proof.
  intros z L c s H E L1 L2 G. unfold RelayProofs.legs in H. rewrite E in H.
  destruct H as (_ & _ & (g & Hg & H1) & H2). apply G in Hg. subst g.
  split; eapply linked_talk; eauto.
Qed.

Lemma leg_greeting : forall z L, legs z L -> fine L -> backed (at_left L) (at_out L) ->
  forall g, ProxyRuns.greeted_with K (middle L) g -> g = gr.
Proof.
  intros z L H (F1 & F2 & F3) B g Hg. destruct (leg_back z L H F2) as [n Tk].
  destruct (ro_back_orderly K relaxed o gr L F3 B) as [O1 O2].
  apply (net_greeting _ _ _ _ _ _ _ _ _ _ Tk O1 O2). now apply greeted_event.
Qed.

Definition rinv (z : relay K T1 T2 T3 T4) (L : list (rlog K)) : Prop :=
  polite (at_in L) /\ ~ In PlPanic (middle L) /\ backed (at_left L) (at_out L) /\
  match r_proxy z with
  | PsGreeting _ _ => at_in L = [] /\ at_out L = []
  | PsLoop _ _ => ginv (at_in L) (at_out L)
  | PsEnd _ => gend (at_in L) (at_out L)
  end.

Lemma fine_app : forall L l, fine (L ++ l) -> fine L.
Proof.
  intros L l (F1 & F2 & F3). rewrite front_app in F1. rewrite back_app in F2.
  split; [eapply linked_app; eauto|]. split; [eapply linked_app; eauto|eapply ro_app; eauto].
Qed.

(** The three kinds of steps. *)
Lemma step_kinds : forall z a z' l, step z a = (z', l) ->
  (r_proxy z' = r_proxy z /\ exists k, l = map RC k) \/ (r_proxy z' = r_proxy z /\ exists k, l = map RS k) \/
  exists b k, pstep K T2 T3 fuel gp (r_proxy z) b = (r_proxy z', k) /\ l = map RP k.
Proof.
  assert (Nil : forall (z z' : relay K T1 T2 T3 T4) (l : list (rlog K)), (z, []) = (z', l) ->
    r_proxy z' = r_proxy z /\ exists k, l = map (@RC K) k).
  { intros z z' l E. injection E as <- <-. split; [reflexivity|]. now exists []. }
  assert (Pr : forall z b z' (l : list (rlog K)), proxy_acts K T1 T2 T3 T4 fuel gp z b = (z', l) ->
    exists b k, pstep K T2 T3 fuel gp (r_proxy z) b = (r_proxy z', k) /\ l = map RP k).
  { intros z b z' l E. unfold proxy_acts in E. destruct (pstep K T2 T3 fuel gp (r_proxy z) b) as [p k] eqn:X.
    injection E as <- <-. exists b, k. cbn [r_proxy]. auto. }
  intros z a z' l E. destruct a as [a|a|a|n|n|n|n]; cbn -[xstep pstep proxy_acts] in E.
  - destruct (conjures a); [left; eapply Nil; eauto|].
    destruct (xstep T1 CM fuel (r_client z) a) as [x k]. injection E as <- <-. left. split; [reflexivity|]. now exists k.
  - destruct (conjures a); [left; eapply Nil; eauto|].
    destruct (xstep T4 SM fuel (r_server z) a) as [x k]. injection E as <- <-. right; left. split; [reflexivity|]. now exists k.
  - destruct (conjures (io_act SM (snd a))); [left; eapply Nil; eauto|]. right; right. eapply Pr; eauto.
  - destruct (firstn n (r_in z)); [left; eapply Nil; eauto|]. destruct (proxy_reading _ _ _ _ _); [|left; eapply Nil; eauto].
    right; right. apply Pr in E. exact E.
  - destruct (firstn n (r_out z)); [left; eapply Nil; eauto|]. destruct (reading _); [|left; eapply Nil; eauto].
    destruct (xstep T1 CM fuel (r_client z) _) as [x k]. injection E as <- <-. left. split; [reflexivity|]. now exists k.
  - destruct (firstn n (r_up z)); [left; eapply Nil; eauto|]. destruct (reading _); [|left; eapply Nil; eauto].
    destruct (xstep T4 SM fuel (r_server z) _) as [x k]. injection E as <- <-. right; left. split; [reflexivity|]. now exists k.
  - destruct (firstn n (r_down z)); [left; eapply Nil; eauto|]. destruct (proxy_reading _ _ _ _ _); [|left; eapply Nil; eauto].
    right; right. apply Pr in E. exact E.
Qed.

Lemma made_app : forall a b q, made a q -> made (a ++ b) q.
Proof.
  intros a b [c|d|] [h H]; exists h; [rewrite ClientInv.enqueued_app|..]; apply in_or_app; now left.
Qed.

Lemma backed_same : forall a b cb cb', backed a cb -> calls cb' = calls cb -> backed (a ++ b) cb'.
Proof.
  intros a b cb cb' [B1 B2] E. unfold backed. rewrite E. split; [|exact B2].
  intros q Hq. apply made_app. auto.
Qed.

Lemma ginv_start : forall g, ginv [] [ClNext (IEvent (CeGreetingReceived g))].
Proof.
  intro g. split; try reflexivity; [discriminate| |constructor].
  intros t Ht. exfalso. clear - Ht. destruct Ht as (k & h & c & E & _). now destruct k.
Qed.

Lemma gend_start : forall r, gend [] [ClNext r].
Proof.
  intro r. split; [exists []; reflexivity| |exists [], (responses [ClNext r]); split; [reflexivity|split; [apply responses_one|constructor]]].
  apply (order_quiet [] (ClNext r)); try reflexivity. now destruct r as [[]| | | | | |].
Qed.
Lemma gend_nil : gend [] [].
Proof. split; [exists []; reflexivity|reflexivity|exists [], []; split; [reflexivity|split; [cbn; lia|constructor]]]. Qed.

Lemma rinv_step : forall z L a z' l, legs z L -> (fine L -> rinv z L) -> step z a = (z', l) ->
  fine (L ++ l) -> rinv z' (L ++ l).
Proof.
  intros z L a z' l HL IH E F. specialize (IH (fine_app _ _ F)).
  pose proof (legs_step _ _ _ _ _ _ _ _ _ _ _ _ _ _ _ _ _ _ _ _ _ _ HL E) as HL'.
  destruct IH as (P & NP & B & I). unfold rinv.
  rewrite in_log_app, out_log_app, middle_app, left_app.
  destruct (step_kinds _ _ _ _ E) as [(Ez & k & ->)|[(Ez & k & ->)|(b & k & Es & ->)]].
  - assert (at_in (map RC k) = [] /\ at_out (map RC k) = []) as [-> ->].
    { rewrite at_in_saw, at_out_caw, middle_c. auto. }
    rewrite Ez, middle_c, !app_nil_r. repeat split; auto; [|apply B]. intros q Hq. apply made_app. now apply B.
  - assert (at_in (map RS k) = [] /\ at_out (map RS k) = []) as [-> ->].
    { rewrite at_in_saw, at_out_caw, middle_s. auto. }
    rewrite Ez, middle_s, !app_nil_r. repeat split; auto; [|apply B]. intros q Hq. apply made_app. now apply B.
  - destruct b as [b a0].
    rewrite (at_in_saw K (map RP k)), (at_out_caw K (map RP k)), middle_p.
    assert (Lf : at_left (map RP k) = []).
    { unfold at_left. rewrite clogs_app_log, front_p. clear. now induction (SpecProxy.at_client k). }
    rewrite Lf, app_nil_r.
    assert (B0 : forall cb, calls cb = calls (at_out L) -> backed (at_left L) cb).
    { intros cb Ec. rewrite <- (app_nil_r (at_left L)). eapply backed_same; eauto. }
    destruct (r_proxy z) as [c s|c s|why] eqn:Ep.
    + destruct I as [I1 I2]. destruct b; cbn [pstep] in Es.
      * apply greeting_glue in Es as (G1 & G2 & G3). rewrite G1, I1, I2. cbn [app].
        split; [intros l1 e l2 X; now destruct l1|]. split; [intro X; apply in_app_or in X as [X|X]; auto|].
        destruct (r_proxy z') as [c' s'|c' s'|why].
        -- rewrite G3. split; [apply B0; now rewrite I2|auto].
        -- destruct G3 as [g G3]. rewrite G3. split; [apply B0; now rewrite I2|]. apply ginv_start.
        -- destruct G3 as [G3|[r G3]]; rewrite G3.
           ++ split; [apply B0; now rewrite I2|]. apply gend_nil.
           ++ split; [apply B0; now rewrite I2|]. apply gend_start.
      * injection Es as <- <-. cbn [saw caw SpecProxy.at_client SpecProxy.at_server flat_map].
        rewrite !app_nil_r. auto.
    + destruct F as (F1 & F2 & F3).
      assert (lives c /\ lives s) as [Lc Ls].
      { pose proof HL as Hx. unfold RelayProofs.legs in Hx. rewrite Ep in Hx. split; apply Hx. }
      assert (HG : ProxyRuns.greeted_with K (middle L) gr).
      { pose proof HL as Hx. unfold RelayProofs.legs in Hx. rewrite Ep in Hx. destruct Hx as (_ & _ & (g & Hg & _) & _).
        pose proof (leg_greeting _ _ HL (fine_app _ _ (conj F1 (conj F2 F3))) B _ Hg). now subst g. }
      destruct (leg_front _ _ HL' F1) as [nf Tf].
      { intros g Hg. rewrite middle_app in Hg. apply (ProxyRuns.greeted_with_app K _ (middle (map RP k))) in HG.
        destruct Hg as [es Hg], HG as [es' HG]. rewrite Hg in HG. now injection HG. }
      destruct (leg_back _ _ HL' F2) as [nb Tb].
      destruct (net_fit _ _ _ _ _ _ _ _ _ _ Tf) as [_ Mf]. destruct (net_fit _ _ _ _ _ _ _ _ _ _ Tb) as [Fb _].
      change (all_modal (at_in (L ++ map RP k))) in Mf. change (all_fitting (at_out (L ++ map RP k))) in Fb.
      pose proof Mf as Mf'. pose proof Fb as Fb'.
      rewrite in_log_app, at_in_saw, (at_in_saw K (map RP k)), <- at_in_saw, middle_p in Mf'.
      rewrite out_log_app, at_out_caw, (at_out_caw K (map RP k)), <- at_out_caw, middle_p in Fb'.
      destruct b; cbn [pstep] in Es.
      * pose proof (server_side_parts K T2 T3 fuel _ _ _ _ _ Lc Es) as (? & ? & ? & ? & ? & ? & ? & ? & ? & ? & Hp).
        apply server_glue in Es as (b & D & NP').
        assert (B' : backed (at_left L) (at_out L ++ caw K k)).
        { apply B0. rewrite calls_app. destruct D; cbn; now rewrite app_nil_r. }
        assert (B'' : backed (at_left (L ++ map RP k)) (at_out (L ++ map RP k))).
        { rewrite left_app, Lf, app_nil_r, out_log_app, (at_out_caw K (map RP k)), middle_p. exact B'. }
        destruct (ro_back_orderly K relaxed o gr _ F3 B'') as [O1 O2].
        destruct (net_views _ _ _ _ _ _ _ _ _ _ Tb O1 O2) as [V _].
        change (all_expected (at_out (L ++ map RP k))) in V.
        rewrite out_log_app, (at_out_caw K (map RP k)), middle_p in V.
        destruct (dn_step _ _ _ _ _ _ I D P Fb' Mf' V) as (-> & J & P').
        split; [exact P'|]. split; [intro X; apply in_app_or in X as [X|X]; [auto|discriminate (NP' X)]|].
        split; [exact B'|]. destruct (r_proxy z') as [c' s'|c' s'|why]; cbn [ends] in J.
        -- contradiction.
        -- destruct J as [J|[J _]]; [exact J|discriminate].
        -- destruct J as [J|[_ J]]; [now apply ginv_gend|exact J].
      * pose proof (client_side_parts K T2 T3 fuel _ _ _ _ _ Ls Es) as (? & ? & ? & ? & ? & ? & ? & ? & ? & ? & Hp).
        apply client_glue in Es as (b & D & NP').
        assert (P' : polite (at_in L ++ saw K k)).
        { destruct D; try (apply polite_snoc; [exact P|exact Logic.I]). now rewrite app_nil_r. }
        assert (P'' : polite (at_in (L ++ map RP k))).
        { rewrite in_log_app, (at_in_saw K (map RP k)), middle_p. exact P'. }
        destruct (ro_front_orderly K relaxed o gr _ F3 P'') as [O1 O2].
        destruct (net_views _ _ _ _ _ _ _ _ _ _ Tf O1 O2) as [_ V].
        change (data_asked (at_in (L ++ map RP k))) in V.
        rewrite in_log_app, (at_in_saw K (map RP k)), middle_p in V.
        destruct (up_step _ _ _ _ _ _ I D Fb' Mf' V) as (-> & J).
        split; [exact P'|]. split; [intro X; apply in_app_or in X as [X|X]; [auto|discriminate (NP' X)]|].
        assert (G : gend (at_in L ++ saw K k) (at_out L ++ caw K k)) by (destruct J as [J|[_ J]]; [now apply ginv_gend|exact J]).
        split.
        -- destruct (ge_told _ _ G) as [rest Et].
           assert (B' : backed (at_left (L ++ map RP k)) (at_out L ++ caw K k)).
           { eapply (leg_backed _ _ _ _ _ _ _ _ _ _ _ rest Tf O1 O2).
             change (slogs (app_log (front (L ++ map RP k)))) with (at_in (L ++ map RP k)).
             rewrite in_log_app, (at_in_saw K (map RP k)), middle_p. exact Et. }
           rewrite left_app, Lf, app_nil_r in B'. exact B'.
        -- destruct (r_proxy z') as [c' s'|c' s'|why]; cbn [ends] in J.
           ++ contradiction.
           ++ destruct J as [J|[J _]]; [exact J|discriminate].
           ++ exact G.
    + cbn [pstep] in Es. injection Es as <- <-. cbn [saw caw SpecProxy.at_client SpecProxy.at_server flat_map].
        rewrite !app_nil_r. auto.
Qed.

Lemma relay_inv : forall acts z L, run start acts = (z, L) -> fine L -> legs z L /\ rinv z L.
Proof.
  intros acts z L E F. split; [eapply relay_legs; eauto|]. revert F.
  enough (legs z L /\ (fine L -> rinv z L)) by tauto. revert acts z L E.
  apply (relay_run_ind K T1 T2 T3 T4 fuel gp (fun z L => legs z L /\ (fine L -> rinv z L))).
  - split; [apply legs_new|]. intros _. unfold rinv. cbn.
    split; [intros l1 e l2 X; now destruct l1|]. split; [auto|]. split; [|auto].
    split; [contradiction|constructor].
  - intros z L a z' l [H1 H2] E. split; [eapply legs_step; eauto|]. eapply rinv_step; eauto.
Qed.

(** The legs, and what the proxy does between them. *)
Lemma relay_works : forall acts z L, run start acts = (z, L) -> fine L ->
  ~ In PlPanic (middle L) /\
  (exists n, front_talk n L) /\ orderly K relaxed proxy_soptions (filter_greeting gr) (app_log (front L)) /\
  own_roundtrips K relaxed proxy_soptions (app_log (front L)) /\
  (exists n, back_talk n L) /\ orderly K false o gr (app_log (back L)) /\
  own_roundtrips K false o (app_log (back L)) /\
  gend (at_in L) (at_out L) /\
  match r_proxy z with
  | PsLoop c s => ginv (at_in L) (at_out L) /\
      front_talk (fnet K T1 T2 T3 T4 z c) L /\ back_talk (bnet K T1 T2 T3 T4 z s) L
  | _ => True
  end.
Proof.
  intros acts z L E F. destruct (relay_inv acts z L E F) as (HL & P & NP & B & I).
  pose proof F as (F1 & F2 & F3).
  split; [exact NP|].
  split; [exact (leg_front z L HL F1 (leg_greeting z L HL F B))|].
  destruct (ro_front_orderly K relaxed o gr L F3 P) as [O1 O2]. split; [exact O1|]. split; [exact O2|].
  split; [exact (leg_back z L HL F2)|].
  destruct (ro_back_orderly K relaxed o gr L F3 B) as [O3 O4]. split; [exact O3|]. split; [exact O4|].
  destruct (r_proxy z) as [c s|c s|why] eqn:Ep.
  - destruct I as [-> ->]. split; [apply gend_nil|exact Logic.I].
  - split; [now apply ginv_gend|]. split; [exact I|].
    exact (leg_nets z L c s HL Ep F1 F2 (leg_greeting z L HL F B)).
  - split; [exact I|exact Logic.I].
Qed.
End Main.
