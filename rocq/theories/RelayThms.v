(** Client, proxy and server: the exchange from end to end. *)
From Coq Require Import List NArith Bool PeanoNat Lia.
From Verif Require Import Base Types Codec Handle Receive ClientSend Client ServerSend Server
  SpecFraming SpecClient SpecServer ClientAbs ServerAbs System SystemAbs SpecSystem SpecSystemLive SystemClient SystemThms SystemLog
  SpecViews SystemViews
  Stream StreamMachine SpecStream Net SpecNet NetProofs NetRest NetApp NetThms NetStall NetViews ProxyEffect ClientFit RelayFit
  ProxyUtil Proxy Relay SpecRelay RelayProofs RelayTalk RelayGlue RelayInv RelayOrder RelaySteps RelayOrderly.
From Verif Require ClientInv SpecProxy ProxyRuns.
Import ListNotations.

Lemma fits_forallb : forall o fs, lits_fit o fs <-> forallb (lit_fitsb o) fs = true.
Proof.
  intros o fs. unfold lits_fit. rewrite forallb_forall, Forall_forall.
  split; intros H f Hf; specialize (H f Hf); destruct f; cbn in *; auto; now apply N.leb_le.
Qed.

Lemma told_passes : forall K o took rd, Forall2 (read_as K o) took rd ->
  flat_map ires_request (map (fun p => sresult (fst p) (snd p)) took) = filter (@passes K o) rd.
Proof.
  intros K o took rd H. induction H as [|p q took rd H0 H IH]; [reflexivity|]. cbn [map flat_map filter].
  rewrite IH. destruct H0 as [c Hf|c pre d post Ec Hf Hd|d|]; cbn [passes]; try reflexivity.
  - apply fits_forallb in Hf. rewrite Hf. cbn [fst snd sresult ires_request app].
    change (command_event c) with (request_event (RqCommand c)). now rewrite event_of_request.
  - assert (forallb (lit_fitsb o) (enc_command K c) = false) as ->; [|reflexivity].
    rewrite Ec, forallb_app. cbn. apply andb_false_intro2. apply andb_false_intro1. now apply N.leb_gt.
Qed.

Lemma filter_split : forall {A} (f : A -> bool) xs a b, filter f xs = a ++ b ->
  exists x y, xs = x ++ y /\ filter f x = a /\ filter f y = b.
Proof.
  intros A f xs. induction xs as [|x xs IH]; intros a b E.
  - cbn in E. symmetry in E. apply app_eq_nil in E as [-> ->]. now exists [], [].
  - cbn in E. destruct (f x) eqn:Ef.
    + destruct a as [|y a].
      * cbn in E. exists [], (x :: xs). cbn. rewrite Ef. auto.
      * injection E as <- E. destruct (IH _ _ E) as (u & v & -> & <- & <-). exists (x :: u), v. cbn. rewrite Ef. auto.
    + destruct (IH _ _ E) as (u & v & -> & <- & <-). exists (x :: u), v. cbn. rewrite Ef. auto.
Qed.

Lemma given_server : forall K (L : list (nlog (client_machine K) (server_machine K))),
  given (rights L) = flat_map accepted (slogs (app_log L)).
Proof. intros. rewrite slogs_app_log. symmetry. apply given_app_log. Qed.

(** At rest no "DONE" is on its way. *)
Lemma rest_closing : forall K relaxed o gc gs gr acts y l, yran K relaxed gc gs o gr acts y l ->
  orderly K relaxed o gr l -> waiting K y -> closing (clogs l) = false.
Proof.
  intros K relaxed o gc gs gr acts y l Y O W. destruct (proj1 (proj2 (proj2 W))) as [c Wc].
  destruct (waiting_rest K relaxed o gc gs gr acts y l Y O c W Wc) as (a & x & rd & items & pre1 & G & R & cs & St).
  pose proof (closing_steps K relaxed _ _ _ (zsteps_asteps K relaxed o _ _ _ (re_steps _ _ _ _ _ _ _ _ _ _ _ _ _ _ _ _ _ St))) as E.
  rewrite clogs_client, closing_app in E. cbn [fold_left closing_step z_a] in E. rewrite E.
  pose proof (re_settled _ _ _ _ _ _ _ _ _ _ _ _ _ _ _ _ _ St (re_greeted _ _ _ _ _ _ _ _ _ _ _ _ _ _ _ _ _ St)) as Hset.
  pose proof (ClientInv.settled_waiting K _ Hset) as Wt. unfold ClientInv.waiting in Wt.
  destruct (cs_current (a_send a)) as [[| |h t []]|]; try reflexivity; contradiction.
Qed.

Lemma forall2_length : forall {A B} (P : A -> B -> Prop) xs ys, Forall2 P xs ys -> length xs = length ys.
Proof. intros A B P xs ys H. induction H; cbn; auto. Qed.
Lemma interleaved_nil : forall {A} (xs ys : list A), interleaved xs [] ys -> xs = ys.
Proof. intros A xs ys H. remember [] as r. induction H; try discriminate; [reflexivity|f_equal; auto]. Qed.

Section Thms.
Context (K : Codecs) (relaxed : bool) (o : soptions) (gc gp gq gs : hgen) (gr : greeting) (T1 T2 T3 T4 : tls).
Context (z : relay K T1 T2 T3 T4) (L : list (rlog K)).
Hypothesis Run : relays relaxed o gc gp gq gs gr T1 T2 T3 T4 z L.
Hypothesis Ord : relay_orderly relaxed o gr L.

Lemma relay_facts :
  ~ In PlPanic (middle L) /\
  (exists n, @talk K relaxed proxy_soptions gc gp (filter_greeting gr) T1 T2 n (front L)) /\
  orderly K relaxed proxy_soptions (filter_greeting gr) (app_log (front L)) /\
  own_roundtrips K relaxed proxy_soptions (app_log (front L)) /\
  (exists n, @talk K false o gq gs gr T3 T4 n (back L)) /\ orderly K false o gr (app_log (back L)) /\
  own_roundtrips K false o (app_log (back L)) /\
  gend (at_in L) (at_out L) /\
  match r_proxy z with
  | PsLoop c s => ginv (at_in L) (at_out L) /\
      @talk K relaxed proxy_soptions gc gp (filter_greeting gr) T1 T2 (fnet K T1 T2 T3 T4 z c) (front L) /\
      @talk K false o gq gs gr T3 T4 (bnet K T1 T2 T3 T4 z s) (back L)
  | _ => True
  end.
Proof. destruct Run as [s1 s2 s3 s4 fuel acts E L1 L2]. eapply relay_works; eauto. Qed.

Lemma relay_no_panic : ~ In PlPanic (middle L).
Proof. apply relay_facts. Qed.

Lemma relay_greeting : exists rest, [filter_greeting gr] = greetings (events (at_left L)) ++ rest.
Proof.
  destruct relay_facts as (_ & (n & Tf) & O1 & O2 & _). exact (net_greeted _ _ _ _ _ _ _ _ _ _ Tf O1 O2).
Qed.

Lemma relay_cmds : exists rest, map snd (enqueued (at_left L)) = cmds (requests (at_left L)) ++ rest.
Proof.
  destruct relay_facts as (_ & (n & Tf) & O1 & O2 & _). exact (net_cmds _ _ _ _ _ _ _ _ _ _ Tf O1 O2).
Qed.

Lemma enq_terminals : forall n, @talk K false o gq gs gr T3 T4 n (back L) ->
  (length (terminals (at_out L)) <= length (enqueued (at_out L)))%nat.
Proof. intros n Tk. apply terminals_le. apply (net_fit _ _ _ _ _ _ _ _ _ _ Tk). Qed.

Lemma relay_exchange : exists rd mid rest took,
  requests (at_left L) = rd ++ mid ++ rest /\
  Forall2 (read_as K o) took (filter (@passes K proxy_soptions) rd) /\
  sreports (at_right L) = map (fun p => sresult (fst p) (snd p)) took /\
  exists late got lost more,
    interleaved (given (rights (back L)))
      (flat_map (rejection K o) (filter (@passes K proxy_soptions) rd))
      (reported_all (events (at_out L)) ++ late) /\
    reported_all (events (at_out L)) = got ++ lost /\
    length lost <= 1 /\ (forall c s, r_proxy z = PsLoop c s -> lost = []) /\
    Forall2 passed got (given (rights (front L))) /\
    interleaved (given (rights (front L))) (flat_map (rejection K proxy_soptions) (rd ++ mid))
      (reported_all (events (at_left L)) ++ more).
Proof.
  destruct relay_facts as (_ & (n & Tf) & O1 & O2 & (n' & Tb) & O3 & O4 & G & M).
  destruct (net_exchange _ _ _ _ _ _ _ _ _ _ Tf O1 O2) as (took1 & rd1 & rest1 & R1 & F1 & S1 & ys & more & I1 & Y1).
  destruct (net_exchange _ _ _ _ _ _ _ _ _ _ Tb O3 O4) as (took & rd2 & rest2 & R2 & F2 & S2 & xs & late & I2 & Y2).
  destruct G as [[r3 G1] G2 (got & r4 & G3 & G3' & G4)].
  destruct (order_requests _ G2 (enq_terminals _ Tb)) as (r5 & G5).
  rewrite told_reports in G1. unfold at_in in G1. rewrite S1, (told_passes _ _ _ _ F1), G5 in G1.
  unfold at_out in G1. rewrite R2, <- !app_assoc in G1.
  destruct (filter_split _ _ _ _ G1) as (rd & mid & -> & E1 & E2).
  exists rd, mid, rest1, took. rewrite <- app_assoc in R1. split; [exact R1|].
  rewrite E1. split; [exact F2|]. split; [exact S2|].
  unfold at_in in G4. rewrite <- given_server in G4.
  exists late, got, r4, more. subst xs ys.
  split; [exact I2|]. split; [exact G3|]. split; [exact G3'|]. split; [|split; [exact G4|exact I1]].
  intros c s Ep. rewrite Ep in M. destruct M as [M _]. pose proof (gi_resp _ _ M) as P.
  apply forall2_length in P. rewrite G3, app_length in P. apply forall2_length in G4.
  unfold at_in in P. rewrite <- given_server in P. destruct r4; [reflexivity|]. cbn in P. lia.
Qed.

Lemma relay_smuggling : forall c, In (IEvent (command_event c)) (sreports (at_right L)) ->
  exists h, In (h, c) (enqueued (at_left L)).
Proof.
  intros c H. destruct relay_exchange as (rd & mid & rest & took & R & F & S & _).
  apply (requests_made (at_left L) (RqCommand c)). rewrite R. apply in_or_app. left.
  assert (In (RqCommand c) (filter (@passes K o) (filter (@passes K proxy_soptions) rd))).
  { rewrite <- (told_passes _ _ _ _ F), <- S. apply in_flat_map. eexists. split; [exact H|].
    cbn [ires_request]. change (command_event c) with (request_event (RqCommand c)). rewrite event_of_request. now left. }
  repeat match goal with H : In _ (filter _ _) |- _ => apply filter_In in H as [H _] end. assumption.
Qed.

(** *** At rest *)

Lemma order_all : forall cl, in_order cl -> (length (enqueued cl) <= S (length (terminals cl)))%nat ->
  (length (terminals cl) <= length (enqueued cl))%nat -> calls cl = requests cl.
Proof.
  intros cl H H1 H2. unfold in_order in H. rewrite H. unfold requests.
  assert (length (enqueued cl) = S (length (terminals cl)) \/ length (enqueued cl) = length (terminals cl)) as [-> | E] by lia;
    [reflexivity|].
  rewrite E, seq_S, flat_map_app. cbn [flat_map]. unfold segment_requests at 3.
  rewrite (proj2 (nth_error_None _ _)) by lia. cbn. now rewrite app_nil_r.
Qed.

Lemma regular_special : forall h c, is_special (h, c) = false <-> regular c.
Proof.
  intros h c. unfold is_special, regular. cbn [snd]. destruct (cbody c); split; intro H; try discriminate; eauto;
    destruct H as [p H]; discriminate.
Qed.

Lemma hd_skipn : forall {A} (xs : list A) n, nth_error xs n = hd_error (skipn n xs).
Proof. intros A xs. induction xs as [|x xs IH]; intros [|n]; cbn; auto. Qed.

Lemma rest_calls : forall sl cl, ginv sl cl -> closing cl = false ->
  (length (terminals cl) <= length (enqueued cl))%nat ->
  (forall h c, oldest cl = Some (h, c) -> ~ regular c) -> calls cl = requests cl.
Proof.
  intros sl cl G C T R. apply order_all; [apply (gi_order _ _ G)| |exact T].
  assert (P : length (pending cl) = length (enqueued cl) - length (terminals cl)) by (unfold pending; apply skipn_length).
  enough (length (pending cl) <= 1)%nat by lia.
  destruct (pending cl) as [|[h c] ps] eqn:E; [cbn; lia|].
  assert (Ho : oldest cl = Some (h, c)) by (unfold oldest; rewrite hd_skipn; fold (pending cl); now rewrite E).
  assert (Hs : is_special (h, c) = true).
  { destruct (is_special (h, c)) eqn:Es; [reflexivity|]. exfalso. apply (R h c Ho). now apply (regular_special h). }
  pose proof (gi_open _ _ G) as Op.
  assert (Oc : open_cmds cl = (h, c) :: filter is_special ps).
  { unfold open_cmds. rewrite C, E. cbn [filter]. now rewrite Hs. }
  assert (Q : forall Pr, the_open Pr sl cl -> length ((h, c) :: ps) <= 1).
  { intros Pr (h' & c' & pre & O1 & O2 & _). rewrite Oc in O1. injection O1 as -> -> O1.
    destruct ps as [|p ps] using rev_ind; [cbn; lia|]. exfalso. clear IHps.
    assert (X : exists u, enqueued cl = u ++ [p]).
    { exists (firstn (length (terminals cl)) (enqueued cl) ++ (h', c') :: ps).
      rewrite <- app_assoc. cbn [app]. rewrite <- E. unfold pending. symmetry. apply firstn_skipn. }
    destruct X as [u X]. rewrite X in O2. apply app_inj_tail in O2 as [_ ->].
    rewrite filter_app in O1. cbn [filter] in O1. rewrite Hs in O1. now destruct (filter is_special ps). }
  unfold open_of in Op. destruct (smode sl); [rewrite Oc in Op; discriminate|eapply Q; eauto..].
Qed.

Lemma rest_legs : relay_at_rest T1 T2 T3 T4 z ->
  ginv (at_in L) (at_out L) /\ exists n1 n2,
  @talk K relaxed proxy_soptions gc gp (filter_greeting gr) T1 T2 n1 (front L) /\
  @talk K false o gq gs gr T3 T4 n2 (back L) /\ at_rest n1 /\ at_rest n2 /\
  requests (at_out L) = filter (@passes K proxy_soptions) (requests (at_left L)).
Proof.
  intros (Z1 & Z2 & Z3 & Z4 & Z5 & Z6 & Z7).
  destruct relay_facts as (_ & _ & O1 & O2 & _ & O3 & O4 & _ & M).
  destruct (r_proxy z) as [c s|c s|why]; [contradiction| |contradiction].
  destruct Z7 as [Z7 Z8]. destruct M as (G & Tf & Tb). split; [exact G|].
  assert (Rf : at_rest (fnet K T1 T2 T3 T4 z c)) by (unfold at_rest; cbn; auto).
  assert (Rb : at_rest (bnet K T1 T2 T3 T4 z s)) by (unfold at_rest; cbn; auto).
  do 2 eexists. split; [exact Tf|]. split; [exact Tb|]. split; [exact Rf|]. split; [exact Rb|].
  destruct (rest_exchange _ _ _ _ _ _ _ _ _ _ Tf O1 O2 Rf) as (took1 & F1 & S1 & _).
  assert (C : closing (at_out L) = false).
  { destruct (talk_rest _ _ _ _ _ _ _ _ _ _ Tb Rb O3 O4) as (acts & y & l & Y & W & O & E1 & _).
    unfold at_out. rewrite E1, shown_clogs, shown_closing. eapply rest_closing; eauto. }
  rewrite <- (rest_calls _ _ G C (enq_terminals _ Tb) (rest_oldest _ _ _ _ _ _ _ _ _ _ Tb O3 O4 Rb)).
  rewrite <- (gi_told _ _ G), told_reports. unfold at_in. rewrite S1. now apply told_passes.
Qed.

Lemma relay_rest : relay_at_rest T1 T2 T3 T4 z ->
  exists took, Forall2 (read_as K o) took (filter (@passes K proxy_soptions) (requests (at_left L))) /\
  sreports (at_right L) = map (fun p => sresult (fst p) (snd p)) took /\
  interleaved (told_sent (at_right L))
    (flat_map (rejection K o) (filter (@passes K proxy_soptions) (requests (at_left L))))
    (reported_all (events (at_out L))) /\
  Forall2 passed (reported_all (events (at_out L))) (given (rights (front L))) /\
  (exists late, given (rights (front L)) = told_sent (at_in L) ++ late) /\
  interleaved (told_sent (at_in L)) (flat_map (rejection K proxy_soptions) (requests (at_left L)))
    (reported_all (events (at_left L))).
Proof.
  intro Rs. destruct (rest_legs Rs) as (G & n1 & n2 & Tf & Tb & Rf & Rb & E).
  destruct relay_facts as (_ & _ & O1 & O2 & _ & O3 & O4 & _).
  destruct (rest_exchange _ _ _ _ _ _ _ _ _ _ Tf O1 O2 Rf) as (took1 & F1 & S1 & I1).
  destruct (rest_exchange _ _ _ _ _ _ _ _ _ _ Tb O3 O4 Rb) as (took & F2 & S2 & I2).
  change (clogs (app_log (back L))) with (at_out L) in *. change (clogs (app_log (front L))) with (at_left L) in *.
  change (slogs (app_log (back L))) with (at_right L) in *. change (slogs (app_log (front L))) with (at_in L) in *.
  rewrite E in *. exists took. split; [exact F2|]. split; [exact S2|].
  pose proof (gi_resp _ _ G) as P. unfold at_in in P at 1. rewrite <- given_server in P.
  split; [exact I2|]. split; [exact P|]. split; [exact (net_told _ _ _ _ _ _ _ _ _ _ Tf)|exact I1].
Qed.

(** If the server rejects nothing, it has sent everything; the same for the proxy. *)
Lemma relay_rest_told : relay_at_rest T1 T2 T3 T4 z ->
  (flat_map (rejection K o) (filter (@passes K proxy_soptions) (requests (at_left L))) = [] ->
   told_sent (at_right L) = given (rights (back L))) /\
  (flat_map (rejection K proxy_soptions) (requests (at_left L)) = [] ->
   told_sent (at_in L) = given (rights (front L))).
Proof.
  intro Rs. destruct (rest_legs Rs) as (G & n1 & n2 & Tf & Tb & Rf & Rb & E).
  destruct relay_facts as (_ & _ & O1 & O2 & _ & O3 & O4 & _). rewrite <- E. split; intro N.
  - exact (rest_told _ _ _ _ _ _ _ _ _ _ Tb O3 O4 Rb N).
  - exact (rest_told _ _ _ _ _ _ _ _ _ _ Tf O1 O2 Rf N).
Qed.

Lemma relay_rest_greeted : relay_at_rest T1 T2 T3 T4 z ->
  greetings (events (at_left L)) = [filter_greeting gr].
Proof.
  intro Rs. destruct (rest_legs Rs) as (_ & n1 & n2 & Tf & _ & Rf & _).
  destruct relay_facts as (_ & _ & O1 & O2 & _). exact (rest_greeted _ _ _ _ _ _ _ _ _ _ Tf O1 O2 Rf).
Qed.

Lemma relay_rest_oldest : relay_at_rest T1 T2 T3 T4 z ->
  forall h c, oldest (at_left L) = Some (h, c) -> ~ regular c.
Proof.
  intro Rs. destruct (rest_legs Rs) as (_ & n1 & n2 & Tf & _ & Rf & _).
  destruct relay_facts as (_ & _ & O1 & O2 & _). exact (rest_oldest _ _ _ _ _ _ _ _ _ _ Tf O1 O2 Rf).
Qed.

(** *** No literal exceeds a limit *)
Hypothesis Fit : forall h c, In (h, c) (enqueued (at_left L)) ->
  lits_fit proxy_soptions (enc_command K c) /\ lits_fit o (enc_command K c).

Lemma all_pass : forall q, In q (requests (at_left L)) ->
  @passes K proxy_soptions q = true /\ @passes K o q = true /\
  rejection K proxy_soptions q = [] /\ rejection K o q = [].
Proof.
  intros q Hq. apply requests_made in Hq. destruct q as [c|d|]; cbn; auto.
  destruct Hq as [h Hq]. destruct (Fit h c Hq) as [H1 H2]. rewrite fits_forallb in H1, H2. now rewrite H1, H2.
Qed.

Lemma filter_all : forall {A} (f : A -> bool) xs, (forall x, In x xs -> f x = true) -> filter f xs = xs.
Proof.
  intros A f xs. induction xs as [|x xs IH]; intro H; [reflexivity|]. cbn. rewrite (H x) by now left.
  f_equal. apply IH. intros y Hy. apply H. now right.
Qed.
Lemma flat_map_none : forall {A B} (f : A -> list B) xs, (forall x, In x xs -> f x = []) -> flat_map f xs = [].
Proof.
  intros A B f xs. induction xs as [|x xs IH]; intro H; [reflexivity|]. cbn. rewrite (H x) by now left.
  apply IH. intros y Hy. apply H. now right.
Qed.

Lemma read_events : forall took rd, Forall2 (read_as K o) took rd ->
  (forall q, In q rd -> @passes K o q = true) ->
  map (fun p => sresult (fst p) (snd p)) took = map (fun q => IEvent (request_event q)) rd.
Proof.
  intros took rd H. induction H as [|p q took rd H0 H IH]; intro P; [reflexivity|]. cbn [map].
  rewrite IH by (intros; apply P; now right). f_equal. specialize (P q (or_introl eq_refl)).
  destruct H0 as [c Hf|c pre d post Ec Hf Hd|d|]; try reflexivity. exfalso.
  cbn in P. rewrite Ec, forallb_app in P. apply andb_prop in P as [_ P]. cbn in P.
  apply andb_prop in P as [P _]. apply N.leb_le in P. lia.
Qed.

Lemma relay_delivered : exists rd rest,
  requests (at_left L) = rd ++ rest /\
  sreports (at_right L) = map (fun q => IEvent (request_event q)) rd /\
  exists rs more, given (rights (back L)) = rs ++ more /\ Forall2 passed rs (reported_all (events (at_left L))).
Proof.
  destruct relay_exchange as (rd & mid & rest & took & R & F & S & late & got & lost & more & I1 & G & _ & _ & P & I2).
  assert (A : forall q, In q (rd ++ mid) -> In q (requests (at_left L))).
  { intros q Hq. rewrite R, app_assoc. apply in_or_app. now left. }
  assert (A' : forall q, In q rd -> In q (requests (at_left L))) by (intros; apply A; apply in_or_app; now left).
  exists rd, (mid ++ rest). split; [exact R|].
  assert (E : filter (@passes K proxy_soptions) rd = rd) by (apply filter_all; intros; now apply all_pass, A').
  rewrite E in *. split.
  - rewrite S. apply read_events; [exact F|]. intros. now apply all_pass, A'.
  - rewrite (flat_map_none (rejection K o)) in I1 by (intros; now apply all_pass, A').
    rewrite (flat_map_none (rejection K proxy_soptions)) in I2 by (intros; now apply all_pass, A).
    apply interleaved_nil in I1, I2. rewrite I1, G. rewrite I2 in P.
    apply Forall2_app_inv_r in P as (rs & rs' & P1 & _ & ->). exists rs, (rs' ++ lost ++ late). now rewrite <- !app_assoc.
Qed.

Lemma relay_rest_delivered : relay_at_rest T1 T2 T3 T4 z ->
  sreports (at_right L) = map (fun q => IEvent (request_event q)) (requests (at_left L)) /\
  Forall2 passed (given (rights (back L))) (reported_all (events (at_left L))).
Proof.
  intro Rs. destruct (relay_rest Rs) as (took & F & S & _).
  assert (E : filter (@passes K proxy_soptions) (requests (at_left L)) = requests (at_left L))
    by (apply filter_all; intros; now apply all_pass).
  rewrite E in *. split.
  { rewrite S. apply read_events; [exact F|]. intros. now apply all_pass. }
  destruct (rest_legs Rs) as (G & n1 & n2 & Tf & Tb & Rf & Rb & Er).
  destruct relay_facts as (_ & _ & O1 & O2 & _ & O3 & O4 & _).
  assert (N1 : flat_map (rejection K proxy_soptions) (requests (at_left L)) = [])
    by (apply flat_map_none; intros; now apply all_pass).
  assert (N2 : flat_map (rejection K o) (requests (at_out L)) = [])
    by (rewrite Er, E; apply flat_map_none; intros; now apply all_pass).
  pose proof (rest_told _ _ _ _ _ _ _ _ _ _ Tf O1 O2 Rf N1) as S1.
  pose proof (rest_told _ _ _ _ _ _ _ _ _ _ Tb O3 O4 Rb N2) as S2.
  destruct (rest_exchange _ _ _ _ _ _ _ _ _ _ Tf O1 O2 Rf) as (_ & _ & _ & I1).
  destruct (rest_exchange _ _ _ _ _ _ _ _ _ _ Tb O3 O4 Rb) as (_ & _ & _ & I2).
  change (clogs (app_log (front L))) with (at_left L) in I1. rewrite N1 in I1.
  change (clogs (app_log (back L))) with (at_out L) in I2. rewrite N2 in I2.
  apply interleaved_nil in I1, I2. rewrite <- S2, I2, <- I1, S1, given_server.
  exact (gi_resp _ _ G).
Qed.
End Thms.
