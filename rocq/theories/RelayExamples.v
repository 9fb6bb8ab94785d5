(** Concrete runs of a client, the proxy and a server, with the toy codec, without TLS and
    with the toy session. *)
From Coq Require Import String List NArith Bool PeanoNat Lia.
From Verif Require Import Base Types Codec Handle Receive ServerSend ClientSend Client Server
  SpecFraming SpecClient SpecServer ToyCodec ToyLaws ClientExamples ServerExamples
  System SpecSystem SpecSystemLive SystemLog SystemExamples
  Stream StreamMachine SpecStream ToyTls Net SpecNet NetProofs NetExamples ProxyUtil Proxy Relay SpecRelay
  RelayProofs.
From Verif Require Import RelayOrderly RelayPassed.
From Verif Require SpecProxy.
Import ListNotations.
Open Scope list_scope.

Notation rst := (relay toy TL TL TL TL).
Notation rac := (ract toy).
(** The generators of the proxy. *)
Definition rgen_c : hgen := HGen 5 0.
Definition rgen_s : hgen := HGen 6 0.
Notation rrun := (relay_run toy TL TL TL TL x_fuel rgen_s).
Notation rstep := (relay_step toy TL TL TL TL x_fuel rgen_s).

(** A scheduler: write what has to be written, call [next], deliver 7 bytes. *)
Definition proxy_side {M} (x : xstate TL M) : option io :=
  match x_f x with
  | FIdle => Some IoPoll
  | FSelect => Some (IoWrite (Some (List.length (x_wbuf (x_s x)))))
  | _ => None
  end.
Definition proxy_act (p : pstate toy TL TL) : option (bool * io) :=
  match p with
  | PsGreeting _ s => option_map (pair true) (proxy_side s)
  | PsLoop c s =>
      match proxy_side c with
      | Some a => Some (false, a)
      | None => option_map (pair true) (proxy_side s)
      end
  | PsEnd _ => None
  end.
Definition r_pick (z : rst) : option rac :=
  match side_act (r_client z), side_act (r_server z), proxy_act (r_proxy z) with
  | Some a, _, _ => Some (RClient a)
  | _, Some a, _ => Some (RServer a)
  | _, _, Some a => Some (RProxy a)
  | _, _, _ =>
      match r_out z, r_up z, r_down z, r_in z with
      | _ :: _, _, _, _ => Some (RToClient 7)
      | _, _ :: _, _, _ => Some (RToServer 7)
      | _, _, _ :: _, _ => Some (RFromServer 7)
      | _, _, _, _ :: _ => Some (RFromClient 7)
      | _, _, _, _ => None
      end
  end.
Fixpoint r_drive (n : nat) (z : rst) : list rac * rst :=
  match n with
  | O => ([], z)
  | S n' =>
      match r_pick z with
      | None => ([], z)
      | Some a => let '(acts, z') := r_drive n' (fst (rstep z a)) in (a :: acts, z')
      end
  end.
Fixpoint r_play (script : list (list rac)) (z : rst) : list rac :=
  match script with
  | [] => []
  | s :: script' =>
      let '(acts, z') := r_drive 800 (fst (rrun z s)) in
      s ++ acts ++ r_play script' z'
  end.

Definition rc_call (p : capp) : rac := RClient (@ACall CM p).
Definition rs_call (p : sapp) : rac := RServer (@ACall SM p).
Definition rc_cancel : rac := RClient ACancel.
Definition rs_cancel : rac := RServer ACancel.

(** The capability "X" is removed by the proxy, from the greeting and from a response. The
    server rejects the literal of APPEND, after the proxy accepted it. *)
Definition r_greeting : greeting :=
  Greeting GkOk (Some (CodeCapability (Vec1 CapImap4Rev1 [CapOther (B "X"); CapIdle]))) (B "hello").
Definition ex_caps : response := RData (DCapability (Vec1 CapIdle [CapOther (B "X")])).
Definition r_script : list (list rac) :=
  [ [rc_call (CaEnqueueCommand ex_login)];
    [rc_cancel; rc_call (CaEnqueueCommand ex_append); rc_call (CaEnqueueCommand ex_auth);
     rc_call (CaEnqueueCommand ex_idle);
     rs_cancel; rs_call (SaEnqueue ex_fetch); rs_call (SaEnqueue ex_caps); rs_call (SaEnqueue (ex_ok "A2"))];
    [rs_cancel; rs_call (SaAuthenticateContinue (CcrBasic None (B "data?")))];
    [rc_cancel; rc_call (CaSetAuthenticateData (ADContinue (B "secret")))];
    [rs_cancel; rs_call (SaAuthenticateFinish (StTagged (B "A3") (StatusBody SkOk None (B "in"))))];
    [rs_cancel; rs_call (SaIdleAccept (CcrBasic None (B "idling")))];
    [rc_cancel; rc_call CaSetIdleDone];
    [rs_cancel; rs_call (SaEnqueue (ex_ok "A4"))] ].

Definition r_new (s1 s2 s3 s4 : stream TL) : rst :=
  relay_new toy TL TL TL TL s1 s2 s3 s4 false y_opts ex_gen rgen_c ygen_s r_greeting.
Definition r_plain : rst :=
  r_new (stream_insecure TL) (stream_insecure TL) (stream_insecure TL) (stream_insecure TL).
(** TLS between the client and the proxy only. *)
Definition r_tls : rst :=
  r_new (stream_tls TL toy_session_new) (stream_tls TL toy_session_new) (stream_insecure TL) (stream_insecure TL).

Definition r_acts (z : rst) : list rac := r_play r_script z.
Definition r_run (z : rst) := rrun z (r_acts z).
Definition r_end (z : rst) : rst := fst (r_run z).
Definition r_log (z : rst) : list (rlog toy) := snd (r_run z).

(** ** The assumptions *)

Lemma r_relays_plain :
  relays false y_opts ex_gen rgen_s rgen_c ygen_s r_greeting TL TL TL TL (r_end r_plain) (r_log r_plain).
Proof.
  eapply relays_intro with (fuel := x_fuel) (acts := r_acts r_plain) (s1 := stream_insecure TL)
    (s2 := stream_insecure TL) (s3 := stream_insecure TL) (s4 := stream_insecure TL).
  - unfold r_end, r_log, r_run. unfold r_plain at 1 3 5, r_new. apply surjective_pairing.
  - now apply linked_plain.
  - now apply linked_plain.
Qed.

Definition aliveb {M} (l : list (xlog M)) : bool :=
  forallb (fun e => match e with XPanic | XHang => false | _ => true end) l.
Lemma alive_check : forall M (l : list (xlog M)), aliveb l = true -> alive l.
Proof. intros M l H. unfold aliveb in H. rewrite forallb_forall in H. split; intro E; apply H in E; discriminate. Qed.

Lemma r_relays_tls :
  relays false y_opts ex_gen rgen_s rgen_c ygen_s r_greeting TL TL TL TL (r_end r_tls) (r_log r_tls).
Proof.
  eapply relays_intro with (fuel := x_fuel) (acts := r_acts r_tls) (s1 := stream_tls TL toy_session_new)
    (s2 := stream_tls TL toy_session_new) (s3 := stream_insecure TL) (s4 := stream_insecure TL).
  - unfold r_end, r_log, r_run. unfold r_tls at 1 3 5, r_new. apply surjective_pairing.
  - eapply linked_tls; try reflexivity; try apply toy_link.
    + apply no_error_check. vm_compute. reflexivity.
    + apply no_error_check. vm_compute. reflexivity.
    + apply alive_check. vm_compute. reflexivity.
    + apply alive_check. vm_compute. reflexivity.
  - now apply linked_plain.
Qed.

(** With TLS the applications see the same. *)
Lemma r_same :
  at_left (r_log r_tls) = at_left (r_log r_plain) /\ at_right (r_log r_tls) = at_right (r_log r_plain) /\
  at_in (r_log r_tls) = at_in (r_log r_plain) /\ at_out (r_log r_tls) = at_out (r_log r_plain).
Proof. split; [|split; [|split]]; vm_compute; reflexivity. Qed.

Lemma r_enqueued : enqueued (at_left (r_log r_plain)) =
  [(hd_ 0, ex_login); (hd_ 1, ex_append); (hd_ 2, ex_auth); (hd_ 3, ex_idle)].
Proof. vm_compute. reflexivity. Qed.

(** Computes a part of the goal. *)
Ltac compute_in t :=
  let v := eval vm_compute in t in
  let E := fresh in assert (E : t = v) by (vm_compute; reflexivity); rewrite E; clear E.
Lemma all_in : forall (P : smsg -> Prop) ms, Forall P ms -> forall m, In m ms -> P m.
Proof. intros P ms H m Hm. rewrite Forall_forall in H. auto. Qed.
Lemma msgs_fetch : forall h, msg_roundtrips toy false (SmResponse h ex_fetch).
Proof.
  intro h. cbn [msg_roundtrips]. exists [4%N].
  apply (with_literal (dec_response toy) false accept_any
    (ln "* 1 FETCH {4}") [CR; LF; LF; CR] (ln ")")); vm_compute; reflexivity.
Qed.

Lemma ro_responses_ex : forall m, In m (scheduled y_opts r_greeting (at_right (r_log r_plain))) -> msg_roundtrips toy false m.
Proof.
  apply all_in. compute_in (scheduled y_opts r_greeting (at_right (r_log r_plain))).
  repeat apply Forall_cons; try apply Forall_nil; cbn [msg_roundtrips]; try one_line; exact (msgs_fetch None).
Qed.
Lemma ro_passed_ex : forall m, In m (scheduled proxy_soptions (filter_greeting r_greeting) (at_in (r_log r_plain))) -> msg_roundtrips toy false m.
Proof.
  apply all_in. compute_in (scheduled proxy_soptions (filter_greeting r_greeting) (at_in (r_log r_plain))).
  repeat apply Forall_cons; try apply Forall_nil; cbn [msg_roundtrips]; try one_line; exact (msgs_fetch None).
Qed.
Lemma ro_cmds_ex : forall h c, In (h, c) (enqueued (at_left (r_log r_plain))) ->
  cmd_roundtrips toy c /\ cmd_fits toy proxy_soptions c /\ cmd_fits toy y_opts c.
Proof.
  rewrite r_enqueued. intros h c Hc.
  assert (E : enqueued (clogs (yx_log y_opts acts_done)) =
    [(hd_ 0, ex_login); (hd_ 1, ex_append); (hd_ 2, ex_auth); (hd_ 3, ex_idle)]) by (vm_compute; reflexivity).
  destruct (or_cmds _ _ _ _ _ talk_orderly h c) as [H1 H2]; [rewrite E; exact Hc|].
  split; [exact H1|]. split; [|exact H2]. clear - Hc. apply cmd_fits_ok.
  + destruct Hc as [Hc|[Hc|[Hc|[Hc|[]]]]]; injection Hc as _ <-; cbn; unfold N.le; cbn;
      repeat (intros _ || (split; [discriminate|])); exact I.
  + destruct Hc as [Hc|[Hc|[Hc|[Hc|[]]]]]; injection Hc as _ <-; cbn; intros d H;
      repeat (destruct H as [H|H]; [first [discriminate|injection H as <-; unfold N.le; cbn; discriminate]|]); contradiction.
Qed.
Lemma ro_data_ex : forall d h, In (ClSetAuth d (inl h)) (at_left (r_log r_plain)) ->
  line_roundtrips (dec_authdata toy) (enc_authdata toy d) d /\
  line_fits proxy_soptions (enc_authdata toy d) /\ line_fits y_opts (enc_authdata toy d).
Proof.
  intros d h Hd.
  assert (E : d = ADContinue (B "secret")).
  { revert Hd. compute_in (at_left (r_log r_plain)). intro Hd.
    repeat (destruct Hd as [Hd|Hd]; [try discriminate; now injection Hd as <- _|]). contradiction. }
  subst d. split; [|split; unfold line_fits; cbn; unfold N.le; cbn; discriminate].
  exists (ln "secret"). split; [reflexivity|]. split; [good_line|]. split; [good_line|]. reflexivity.
Qed.
Lemma ro_done_ex : forall h, In (ClSetDone (Some h)) (at_left (r_log r_plain)) ->
  line_roundtrips (dec_idledone toy) (enc_idledone toy) tt /\
  line_fits proxy_soptions (enc_idledone toy) /\ line_fits y_opts (enc_idledone toy).
Proof.
  intros h _. split; [|split; unfold line_fits; cbn; unfold N.le; cbn; discriminate].
  exists (ln "DONE"). split; [reflexivity|]. split; [good_line|]. split; [good_line|]. reflexivity.
Qed.
Lemma ro_tags_ex : NoDup (map (fun x => ctag (snd x)) (enqueued (at_left (r_log r_plain)))).
Proof.
  rewrite r_enqueued. cbn [map snd]. repeat constructor; cbn; intuition discriminate.
Qed.
Lemma ro_polite_ex : polite (at_right (r_log r_plain)).
Proof.
  intros l1 e l2 E. apply (polite_from_ok (at_right (r_log r_plain)) []) with (l2 := l2); [|exact E].
  clear E. compute_in (at_right (r_log r_plain)).
  cbn [polite_from app].
  repeat match goal with
  | |- _ /\ _ => split
  | |- True => exact I
  | |- _ => first [exact I | vm_compute; reflexivity | vm_compute; left; reflexivity
      | vm_compute; right; left; reflexivity
      | vm_compute; eauto 8]
  end.
Qed.
Lemma own_at_left : forall o (L : list (rlog toy)),
  msg_roundtrips toy false (SmResponse None (RCcr (CcrBasic None (so_accept_text o)))) ->
  (forall h c, In (h, c) (enqueued (at_left L)) -> msg_roundtrips toy false
    (SmResponse None (RStatus (StTagged (ctag c) (StatusBody SkBad None (so_reject_text o)))))) ->
  own_roundtrips toy false o (app_log (front L)).
Proof. intros o L H1 H2. split; [exact H1|]. intros h c H. eapply H2. exact H. Qed.
Lemma ro_own_ex : own_roundtrips toy false proxy_soptions (app_log (front (r_log r_plain))).
Proof.
  apply own_at_left; [cbn [msg_roundtrips]; one_line|]. rewrite r_enqueued. intros h c H.
  destruct H as [H|[H|[H|[H|[]]]]]; injection H as _ <-; cbn [msg_roundtrips]; one_line.
Qed.
Lemma ro_accept_ex : msg_roundtrips toy false (SmResponse None (RCcr (CcrBasic None (so_accept_text y_opts)))).
Proof.
  cbn [msg_roundtrips]. one_line.
Qed.
Lemma ro_reject_ex : forall h c, In (h, c) (enqueued (at_left (r_log r_plain))) ->
  msg_roundtrips toy false
    (SmResponse None (RStatus (StTagged (ctag c) (StatusBody SkBad None (so_reject_text y_opts))))).
Proof.
  intros h c H. rewrite r_enqueued in H.
  destruct H as [H|[H|[H|[H|[]]]]]; injection H as _ <-; cbn [msg_roundtrips]; one_line.
Qed.
Lemma r_orderly : relay_orderly false y_opts r_greeting (r_log r_plain).
Proof.
  constructor; [constructor|exact ro_passed_ex].
  - exact ro_responses_ex.
  - exact ro_cmds_ex.
  - exact ro_data_ex.
  - exact ro_done_ex.
  - reflexivity.
  - exact ro_tags_ex.
  - exact ro_polite_ex.
  - exact ro_own_ex.
  - exact ro_accept_ex.
  - exact ro_reject_ex.
Qed.

Lemma same_orderly : forall L L' : list (rlog toy),
  at_left L' = at_left L -> at_right L' = at_right L -> at_in L' = at_in L ->
  relay_orderly false y_opts r_greeting L -> relay_orderly false y_opts r_greeting L'.
Proof.
  intros L L' E1 E2 E3 [[H1 H3 H4 H5 H6 H7 H8 [H9 H9'] H10 H11] H2].
  constructor; [constructor|]; rewrite ?E1, ?E2, ?E3; auto.
  apply own_at_left; [exact H9|]. rewrite E1. exact H9'.
Qed.
Lemma r_orderly_tls : relay_orderly false y_opts r_greeting (r_log r_tls).
Proof. destruct r_same as (E1 & E2 & E3 & _). exact (same_orderly _ _ E1 E2 E3 r_orderly). Qed.

(** Only LOGIN: no literal is too long. *)
Definition f_script : list (list rac) :=
  [ [rc_call (CaEnqueueCommand ex_login)];
    [rs_cancel; rs_call (SaEnqueue ex_fetch); rs_call (SaEnqueue ex_caps); rs_call (SaEnqueue (ex_ok "A2"))] ].
Definition f_run := rrun r_plain (r_play f_script r_plain).
Definition f_log : list (rlog toy) := snd f_run.

Lemma f_relays :
  relays false y_opts ex_gen rgen_s rgen_c ygen_s r_greeting TL TL TL TL (fst f_run) f_log.
Proof.
  eapply relays_intro with (fuel := x_fuel) (acts := r_play f_script r_plain) (s1 := stream_insecure TL)
    (s2 := stream_insecure TL) (s3 := stream_insecure TL) (s4 := stream_insecure TL).
  - unfold f_log, f_run. unfold r_plain at 1 3 5, r_new. apply surjective_pairing.
  - now apply linked_plain.
  - now apply linked_plain.
Qed.
Lemma f_enqueued : enqueued (at_left f_log) = [(hd_ 0, ex_login)].
Proof. vm_compute. reflexivity. Qed.
Lemma f_in : forall h c, In (h, c) (enqueued (at_left f_log)) -> In (h, c) (enqueued (at_left (r_log r_plain))).
Proof. rewrite f_enqueued, r_enqueued. intros h c [H|[]]. now left. Qed.
Lemma f_right : at_right f_log = firstn 8 (at_right (r_log r_plain)).
Proof. vm_compute. reflexivity. Qed.
Lemma f_inner : at_in f_log = firstn 8 (at_in (r_log r_plain)).
Proof. vm_compute. reflexivity. Qed.
Lemma scheduled_firstn : forall o g n l m, In m (scheduled o g (firstn n l)) -> In m (scheduled o g l).
Proof.
  intros o g n l m [H|H]; [now left|right]. rewrite <- (firstn_skipn n l), flat_map_app. apply in_or_app. now left.
Qed.
Lemma f_orderly : relay_orderly false y_opts r_greeting f_log.
Proof.
  pose proof r_orderly as [R Q]. constructor; [constructor|].
  - rewrite f_right. intros m H. apply scheduled_firstn in H. exact (ro_responses _ _ _ _ R m H).
  - intros h c H. exact (ro_cmds _ _ _ _ R h c (f_in h c H)).
  - intros d h. compute_in (at_left f_log). cbn. intuition discriminate.
  - intros h. compute_in (at_left f_log). cbn. intuition discriminate.
  - reflexivity.
  - rewrite f_enqueued. repeat constructor; cbn; intuition discriminate.
  - intros l1 e l2 E. rewrite f_right in E.
    apply (ro_polite _ _ _ _ R l1 e (l2 ++ skipn 8 (at_right (r_log r_plain)))).
    rewrite <- (firstn_skipn 8 (at_right (r_log r_plain))) at 1. rewrite E, <- app_assoc. reflexivity.
  - apply own_at_left; [apply (ro_own _ _ _ _ R)|]. rewrite f_enqueued. intros h c [H|[]]. injection H as _ <-.
    cbn [msg_roundtrips]. one_line.
  - exact (ro_accept _ _ _ _ R).
  - intros h c H. exact (ro_reject _ _ _ _ R h c (f_in h c H)).
  - rewrite f_inner. intros m H. apply scheduled_firstn in H. exact (Q m H).
Qed.

(** The same conversation, up to the last call of an application: the server has enqueued its
    responses, and nothing is sent yet. What follows is without the applications. *)
Definition rcalmb (a : rac) : bool :=
  match a with
  | RClient ANext | RClient (AWrite (Some (S _))) | RClient (AFlushed true) => true
  | RServer ANext | RServer (AWrite (Some (S _))) | RServer (AFlushed true) => true
  | RProxy (_, IoPoll) | RProxy (_, IoWrite (Some (S _))) => true
  | RFromClient _ | RToClient _ | RToServer _ | RFromServer _ => true
  | _ => false
  end.
Fixpoint calm_tail (l : list rac) : nat :=
  match l with [] => 0 | a :: l' => if forallb rcalmb l then 0 else S (calm_tail l') end.
Definition f_acts : list rac := r_play f_script r_plain.
Definition h_acts : list rac := firstn (calm_tail f_acts) f_acts.
Definition h_rest : list rac := skipn (calm_tail f_acts) f_acts.
Definition h_run := rrun r_plain h_acts.
Definition h_log : list (rlog toy) := snd h_run.
Lemma h_calm : Forall (@relay_calm toy) h_rest.
Proof.
  assert (E : forallb rcalmb h_rest = true) by (vm_compute; reflexivity). revert E.
  generalize h_rest. induction l as [|a l IH]; intro E; [constructor|].
  cbn [forallb] in E. apply andb_true_iff in E as [E1 E2]. constructor; [|auto].
  destruct a as [[]|[]|[d []]| | | |]; cbn in *; try discriminate; auto;
    repeat match goal with |- context [match ?x with _ => _ end] => destruct x; cbn in *; try discriminate; auto end.
Qed.
Lemma h_continued : f_log = h_log ++ snd (rrun (fst h_run) h_rest).
Proof.
  unfold f_log, f_run. fold f_acts. unfold h_log, h_run, h_rest, h_acts.
  rewrite <- (firstn_skipn (calm_tail f_acts) f_acts) at 1. rewrite relay_run_app.
  destruct (rrun r_plain _) as [z1 l1]. cbn [fst snd]. now destruct (rrun z1 _).
Qed.

Lemma unsupported_x : ~ SpecProxy.supported (CapOther (B "X")).
Proof. intros [H|[[r H]|(m & H & _)]]; [|discriminate..]. cbn in H. intuition discriminate. Qed.
Lemma supported_idle : SpecProxy.supported CapIdle.
Proof. left. cbn. tauto. Qed.
Lemma f_given : given (rights (back f_log)) = [ex_fetch; ex_caps; ex_ok "A2"].
Proof. vm_compute. reflexivity. Qed.
Lemma f_relayable : relayable false y_opts r_greeting f_log.
Proof.
  split; [cbn [msg_roundtrips filter_greeting]; one_line|]. intros r r' h P H.
  assert (R : In r [ex_fetch; ex_caps; ex_ok "A2"]).
  { rewrite f_given, f_enqueued in H. destruct H as [H|(h0 & c & [E|[]] & H)]; [exact H|].
    injection E as _ <-. vm_compute in H. contradiction. }
  clear H. destruct R as [<-|[<-|[<-|[]]]].
  - inversion P as [| |r1 r2 Q E1 E2| |]; subst. inversion Q; subst. exact (msgs_fetch h).
  - inversion P as [| |r1 r2 Q E1 E2| |]; subst. inversion Q as [v v' D E1 E2| | | | | |]; subst.
    assert (V : v' = Vec1 CapIdle []).
    { destruct v' as [x xs]. unfold SpecProxy.reduced in D. cbn [v1_list v1_hd v1_tl] in D.
      destruct D as [D|[D _]]; inversion D as [|? ? ? S D1|? ? ? S D1]; subst;
        try (now contradiction S; apply supported_idle);
        inversion D1 as [|? ? ? S2 D2|? ? ? S2 D2]; subst; try (now contradiction (unsupported_x S2));
        inversion D2; subst; reflexivity. }
    subst v'. cbn [msg_roundtrips]. one_line.
  - assert (E : r' = ex_ok "A2").
    { inversion P as [|t b E1 E2|r1 r2 Q E1 E2|t b E1 E2 E3|t b E1 E2 E3]; subst; try reflexivity; try discriminate.
      inversion Q as [| |t b b' D E1 E2| | | |]; subst. inversion D as [k c c' t0 D2 E1 E2]; subst.
      inversion D2; subst. reflexivity. }
    subst r'. cbn [msg_roundtrips]. one_line.
Qed.
Lemma h_orderly : ends_orderly false y_opts r_greeting h_log.
Proof.
  eapply (re_app toy false y_opts r_greeting). rewrite <- h_continued. exact (ro_ends _ _ _ _ f_orderly).
Qed.
Lemma h_relayable : relayable false y_opts r_greeting h_log.
Proof. eapply (relayable_app toy false y_opts r_greeting). rewrite <- h_continued. exact f_relayable. Qed.

(** The application of the server accepts IDLE, and then enqueues the tagged status before it
    was told "DONE". *)
Definition impolite_script : list (list rac) :=
  [ [rc_call (CaEnqueueCommand ex_idle)];
    [rs_cancel; rs_call (SaIdleAccept (CcrBasic None (B "idling")))];
    [rs_cancel; rs_call (SaEnqueue (ex_ok "A4"))] ].
Definition impolite_run := rrun r_plain (r_play impolite_script r_plain).
Definition r_ended (z : rst) : option pend := match r_proxy z with PsEnd why => Some why | _ => None end.
Lemma panic_check : forall l : list (plog toy),
  existsb (fun e => match e with PlPanic => true | _ => false end) l = true -> In PlPanic l.
Proof. intros l H. apply existsb_exists in H as ([| | |] & H & E); try discriminate. exact H. Qed.
Lemma impolite_facts :
  relays false y_opts ex_gen rgen_s rgen_c ygen_s r_greeting TL TL TL TL
    (fst impolite_run) (snd impolite_run) /\
  at_right (snd impolite_run) =
    [SlNext (IEvent (SeGreetingSent r_greeting)); SlNext (IEvent (SeIdleCommandReceived (B "A4")));
     SlIdleAccept (CcrBasic None (B "idling")) (inl (Handle 4 0));
     SlNext (IEvent (SeResponseSent (Handle 4 0) (RCcr (CcrBasic None (B "idling")))));
     SlEnqueue (ex_ok "A4") (Handle 4 1);
     SlNext (IEvent (SeResponseSent (Handle 4 1) (ex_ok "A4")))] /\
  In PlPanic (middle (snd impolite_run)) /\ r_ended (fst impolite_run) = Some PePanicked.
Proof.
  split.
  { eapply relays_intro with (fuel := x_fuel) (acts := r_play impolite_script r_plain) (s1 := stream_insecure TL)
      (s2 := stream_insecure TL) (s3 := stream_insecure TL) (s4 := stream_insecure TL).
    - unfold impolite_run. unfold r_plain at 1 3 5, r_new. apply surjective_pairing.
    - now apply linked_plain.
    - now apply linked_plain. }
  split; [vm_compute; reflexivity|]. split; [apply panic_check|]; vm_compute; reflexivity.
Qed.
