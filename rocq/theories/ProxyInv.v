(** The invariant of the proxy. *)
From Coq Require Import List NArith Bool PeanoNat Lia.
From Verif Require Import Base Types Codec Handle Receive ClientSend Client ServerSend Server
  SpecClient SpecServer Stream StreamMachine SpecStream StreamProofs StreamState
  ProxyUtil Proxy SpecProxy ProxyFilter ProxyEffect ProxyProofs.
Import ListNotations.

(** ** Projections *)

Section Logs.
Context {K : Codecs}.
Notation SM := (server_machine K).
Notation CM := (client_machine K).
Implicit Types l : list (plog K).

Lemma at_client_app : forall l1 l2, at_client (l1 ++ l2) = at_client l1 ++ at_client l2.
Proof. induction l1 as [|[] l1 IH]; intro l2; cbn; now rewrite ?IH. Qed.
Lemma at_server_app : forall l1 l2, at_server (l1 ++ l2) = at_server l1 ++ at_server l2.
Proof. induction l1 as [|[] l1 IH]; intro l2; cbn; now rewrite ?IH. Qed.
Lemma client_events_app : forall l1 l2, client_events (l1 ++ l2) = client_events l1 ++ client_events l2.
Proof.
  induction l1 as [|[e| | |] l1 IH]; intro l2; cbn; auto.
  destruct e; cbn; auto. destruct r; cbn; now rewrite ?IH.
Qed.
Lemma server_events_app : forall l1 l2, server_events (l1 ++ l2) = server_events l1 ++ server_events l2.
Proof.
  induction l1 as [|[|e| |] l1 IH]; intro l2; cbn; auto.
  destruct e; cbn; auto. destruct r; cbn; now rewrite ?IH.
Qed.
Lemma calls_to_client_app : forall l1 l2, calls_to_client (l1 ++ l2) = calls_to_client l1 ++ calls_to_client l2.
Proof.
  induction l1 as [|[e| | |] l1 IH]; intro l2; cbn; auto. destruct e; cbn; now rewrite ?IH.
Qed.
Lemma calls_to_server_app : forall l1 l2, calls_to_server (l1 ++ l2) = calls_to_server l1 ++ calls_to_server l2.
Proof.
  induction l1 as [|[|e| |] l1 IH]; intro l2; cbn; auto. destruct e; cbn; now rewrite ?IH.
Qed.
Lemma asked_app : forall l1 l2, asked (l1 ++ l2) = fold_left asked_step l2 (asked l1).
Proof. intros. apply fold_left_app. Qed.
Lemma idling_app : forall l1 l2, idling (l1 ++ l2) = fold_left idling_step l2 (idling l1).
Proof. intros. apply fold_left_app. Qed.

Lemma at_client_map : forall x, at_client (map (@PlClient K) x) = x.
Proof. induction x; cbn; congruence. Qed.
Lemma at_server_map : forall x, at_server (map (@PlServer K) x) = x.
Proof. induction x; cbn; congruence. Qed.
Lemma at_client_other : forall x, at_client (map (@PlServer K) x) = [].
Proof. induction x; cbn; auto. Qed.
Lemma at_server_other : forall x, at_server (map (@PlClient K) x) = [].
Proof. induction x; cbn; auto. Qed.

(** What matters in [l] for forwarding: nothing. *)
Definition blank (l : list (plog K)) : Prop :=
  client_events l = [] /\ server_events l = [] /\ calls_to_client l = [] /\ calls_to_server l = [] /\
  (forall b, fold_left asked_step l b = b) /\ (forall b, fold_left idling_step l b = b) /\
  ~ In PlPanic l.

Lemma blank_nil : blank [].
Proof. repeat split; auto. Qed.

Lemma blank_app : forall l1 l2, blank l1 -> blank l2 -> blank (l1 ++ l2).
Proof.
  intros l1 l2 (A1 & A2 & A3 & A4 & A5 & A6 & A7) (B1 & B2 & B3 & B4 & B5 & B6 & B7).
  unfold blank. rewrite client_events_app, server_events_app, calls_to_client_app, calls_to_server_app.
  rewrite A1, A2, A3, A4. repeat split; auto.
  - intro b. now rewrite fold_left_app, A5.
  - intro b. now rewrite fold_left_app, A6.
  - intro F. apply in_app_or in F as [F|F]; auto.
Qed.

Lemma blank_cons : forall e l, blank [e] -> blank l -> blank (e :: l).
Proof. intros e l H1 H2. exact (blank_app [e] l H1 H2). Qed.

Lemma blank_client : forall x, Forall calm x -> blank (map (@PlClient K) x).
Proof.
  intros x H. induction H as [|e x He H IH]; [apply blank_nil|]. cbn. apply blank_cons; [|exact IH].
  unfold blank. destruct e; cbn in He |- *; try contradiction; repeat split; auto;
    intros [F|[]]; discriminate.
Qed.
Lemma blank_server : forall x, Forall calm x -> blank (map (@PlServer K) x).
Proof.
  intros x H. induction H as [|e x He H IH]; [apply blank_nil|]. cbn. apply blank_cons; [|exact IH].
  unfold blank. destruct e; cbn in He |- *; try contradiction; repeat split; auto;
    intros [F|[]]; discriminate.
Qed.

Lemma blank_client_cancel : forall x, x = [] \/ x = [XCancel] -> blank (map (@PlClient K) x).
Proof.
  intros x [->| ->]; [apply blank_nil|]. repeat split; auto. intros [F|[]]; discriminate.
Qed.
Lemma blank_server_cancel : forall x, x = [] \/ x = [XCancel] -> blank (map (@PlServer K) x).
Proof.
  intros x [->| ->]; [apply blank_nil|]. repeat split; auto. intros [F|[]]; discriminate.
Qed.

(** A step of a stream: at most one event. *)
Definition event_of {M} (r : option (sret M)) : list (m_ev M) :=
  match r with Some (RetEvent e) => [e] | _ => [] end.

Lemma client_io_log : forall T fuel c a c1 (l1 : list (xlog _)), xstep T SM fuel c (io_act SM a) = (c1, l1) ->
  let l := map (@PlClient K) l1 in
  client_events l = event_of (returned l1) /\ server_events l = [] /\
  calls_to_client l = [] /\ calls_to_server l = [] /\
  (forall b, fold_left asked_step l b = b) /\ (forall b, fold_left idling_step l b = b) /\ ~ In PlPanic l.
Proof.
  intros T fuel c a c1 l1 E l. apply io_shape in E as (pre & post & El & Hp & He).
  apply blank_client in Hp as (P1 & P2 & P3 & P4 & P5 & P6 & P7). unfold l.
  assert (Q : client_events (map PlClient post) = event_of (returned l1) /\ server_events (map PlClient post) = [] /\
    calls_to_client (map PlClient post) = [] /\ calls_to_server (map PlClient post) = [] /\
    (forall b, fold_left asked_step (map (@PlClient K) post) b = b) /\
    (forall b, fold_left idling_step (map (@PlClient K) post) b = b) /\ ~ In (@PlPanic K) (map PlClient post)).
  { destruct He as [|r Hr|e|e]; cbn.
    - repeat split; auto.
    - destruct Hr as [->|[->| ->]]; repeat split; auto; intros [F|[]]; discriminate.
    - repeat split; auto; intros [F|[F|[]]]; discriminate.
    - repeat split; auto; intros [F|[F|[]]]; discriminate. }
  destruct Q as (Q1 & Q2 & Q3 & Q4 & Q5 & Q6 & Q7).
  assert (M : map (@PlClient K) l1 = map PlClient pre ++ map PlClient post) by (rewrite El; apply map_app).
  rewrite M, client_events_app, server_events_app, calls_to_client_app, calls_to_server_app.
  rewrite P1, P2, P3, P4. repeat split; auto.
  - intro b. now rewrite fold_left_app, P5.
  - intro b. now rewrite fold_left_app, P6.
  - intro F. apply in_app_or in F as [F|F]; auto.
Qed.

Lemma server_io_log : forall T fuel c a c1 (l1 : list (xlog _)), xstep T CM fuel c (io_act CM a) = (c1, l1) ->
  let l := map (@PlServer K) l1 in
  client_events l = [] /\ server_events l = event_of (returned l1) /\
  calls_to_client l = [] /\ calls_to_server l = [] /\
  (forall b, fold_left asked_step l b =
    match returned l1 with Some r => asked_step b (PlServer (XRet r)) | None => b end) /\
  (forall b, fold_left idling_step l b =
    match returned l1 with Some r => idling_step b (PlServer (XRet r)) | None => b end) /\
  ~ In PlPanic l.
Proof.
  intros T fuel c a c1 l1 E l. apply io_shape in E as (pre & post & El & Hp & He).
  apply blank_server in Hp as (P1 & P2 & P3 & P4 & P5 & P6 & P7). unfold l.
  assert (Q : client_events (map PlServer post) = [] /\ server_events (map PlServer post) = event_of (returned l1) /\
    calls_to_client (map PlServer post) = [] /\ calls_to_server (map PlServer post) = [] /\
    (forall b, fold_left asked_step (map (@PlServer K) post) b =
      match returned l1 with Some r => asked_step b (@PlServer K (XRet r)) | None => b end) /\
    (forall b, fold_left idling_step (map (@PlServer K) post) b =
      match returned l1 with Some r => idling_step b (@PlServer K (XRet r)) | None => b end) /\
    ~ In (@PlPanic K) (map PlServer post)).
  { destruct He as [|r Hr|e|e]; cbn.
    - repeat split; auto.
    - destruct Hr as [->|[->| ->]]; repeat split; auto; intros [F|[]]; discriminate.
    - repeat split; auto; intros [F|[F|[]]]; discriminate.
    - repeat split; auto; intros [F|[F|[]]]; discriminate. }
  destruct Q as (Q1 & Q2 & Q3 & Q4 & Q5 & Q6 & Q7).
  assert (M : map (@PlServer K) l1 = map PlServer pre ++ map PlServer post) by (rewrite El; apply map_app).
  rewrite M, client_events_app, server_events_app, calls_to_client_app, calls_to_server_app.
  rewrite P1, P2, P3, P4. repeat split; auto.
  - intro b. now rewrite fold_left_app, P5.
  - intro b. now rewrite fold_left_app, P6.
  - intro F. apply in_app_or in F as [F|F]; auto.
Qed.
End Logs.

(** ** The invariant *)

Section Inv.
Context (K : Codecs) (Tc Ts : tls) (fuel : nat).
Notation SM := (server_machine K).
Notation CM := (client_machine K).

(** The AUTHENTICATE or IDLE of the client that the proxy has forwarded. *)
Definition of_mode (ak : bool) (m : expected) : list special :=
  match m with
  | ExCommand => []
  | ExAuthenticateData => [SpAuth ak]
  | ExIdleAccept => [SpIdle false]
  | ExIdleDone => [SpIdle true]
  end.

Definition track (m : expected) (ak id : bool) (c : server) (s : client) : Prop :=
  sgood K proxy_soptions c m /\ cgood K false s true /\
  specials (c_send s) = of_mode ak m /\
  (m <> ExAuthenticateData -> ak = false) /\ id = expected_eqb m ExIdleDone.

Lemma client_handled : forall m ak id c s c1 e,
  track m ak id c s ->
  sgood K proxy_soptions c1 (smode_step m (SlNext (IEvent e))) ->
  expects m (SlNext (IEvent e)) ->
  match handle_client_event K (@RetEvent SM e) with
  | RxAbort => False
  | RxContinue => requested e = [] /\ track m ak id c1 s
  | RxCall o u =>
      requested e = [requesting o] /\
      forall s' r, m_call CM s o = Some (s', r) ->
      (c_call_failed r = false /\
       exists m', track m' (asked_step ak (PlServer (@XCall CM o r)))
                    (idling_step id (PlServer (@XCall CM o r))) c1 s') \/
      (exists d, u = true /\ o = CaSetAuthenticateData d /\ r = ClSetAuth d (inr d) /\ ak = false)
  end.
Proof.
  intros m ak id c s c1 e (H1 & H2 & H3 & H4 & H5) G X.
  destruct e as [g|h r|cmd|ca|d|t| ]; cbn [handle_client_event].
  - split; [reflexivity|]. repeat split; auto.
  - split; [reflexivity|]. repeat split; auto.
  - destruct X as [-> [p Hp]]. split; [reflexivity|]. intros s' r C.
    destruct (client_call_effect K s true _ s' r H2 C) as (C1 & C2 & h & ->).
    left. split; [reflexivity|]. exists ExCommand. repeat split; auto.
    inversion C2; subst. rewrite H3. cbn. unfold special_cmd. now rewrite Hp.
  - cbn in X, G. subst m. split; [reflexivity|]. intros s' r C.
    destruct (client_call_effect K s true _ s' r H2 C) as (C1 & C2 & h & ->).
    left. split; [reflexivity|]. exists ExAuthenticateData. cbn. repeat split; auto.
    inversion C2; subst. rewrite H3. cbn. rewrite H4 by discriminate. reflexivity.
  - cbn in X, G. subst m. split; [reflexivity|]. intros s' r C.
    destruct (client_call_effect K s true _ s' r H2 C) as (C1 & C2 & r0 & ->).
    rewrite H3 in C2. cbn in C2. inversion C2; subst.
    + left. split; [reflexivity|]. exists ExAuthenticateData. cbn. repeat split; auto.
    + right. exists d. repeat split; auto. destruct ak; [|reflexivity]. match goal with H : forall _, _ <> _ |- _ => now contradiction (H []) end.
  - cbn in X, G. subst m. split; [reflexivity|]. intros s' r C.
    destruct (client_call_effect K s true _ s' r H2 C) as (C1 & C2 & h & ->).
    left. split; [reflexivity|]. exists ExIdleAccept. cbn. repeat split; auto.
    + inversion C2; subst. rewrite H3. reflexivity.
    + intros _. apply H4. discriminate.
  - cbn in X, G. subst m. split; [reflexivity|]. intros s' r C.
    destruct (client_call_effect K s true _ s' r H2 C) as (C1 & C2 & r0 & ->).
    rewrite H3 in C2. cbn in C2. inversion C2; subst.
    + left. split; [reflexivity|]. exists ExCommand. cbn. repeat split; auto.
      intros _. apply H4. discriminate.
    + match goal with H : forall _, _ <> _ |- _ => now contradiction (H []) end.
Qed.

Lemma eff_event_inv : forall sp e sp', eff sp (ClNext (IEvent e)) sp' ->
  match e with
  | CeAuthenticateContinuationRequestReceived _ _ =>
      exists r, sp = SpAuth false :: r /\ sp' = SpAuth true :: r
  | CeAuthenticateStatusReceived _ _ _ => exists b, sp = SpAuth b :: sp'
  | CeIdleAccepted _ _ => exists r, sp = SpIdle false :: r /\ sp' = SpIdle true :: r
  | CeIdleRejected _ _ => exists b, sp = SpIdle b :: sp'
  | _ => neutral e = true /\ sp' = sp
  end.
Proof.
  intros sp e sp' H. inversion H; subst; eauto.
  - destruct e; auto; discriminate.
  - match goal with H : forall _, _ <> _ |- _ => now contradiction (H e) end.
Qed.

Lemma server_handled : forall m ak id c s s1 e,
  track m ak id c s ->
  cgood K false s1 true ->
  eff (specials (c_send s)) (ClNext (IEvent e)) (specials (c_send s1)) ->
  let ak1 := asked_step ak (PlServer (@XRet CM (@RetEvent CM e))) in
  let id1 := idling_step id (PlServer (@XRet CM (@RetEvent CM e))) in
  match handle_server_event K (@RetEvent CM e) with
  | RxAbort => False
  | RxContinue => is_report e = false /\ track m ak1 id1 c s1
  | RxCall o u =>
      is_report e = true /\ relayed e o /\
      forall c' r, m_call SM c o = Some (c', r) ->
      (s_call_failed r = false /\ exists m', track m' ak1 id1 c' s1) \/
      (exists t, u = true /\ o = SaIdleReject t /\ r = SlIdleReject t (inr t) /\ id1 = true)
  end.
Proof.
  intros m ak id c s s1 e (H1 & H2 & H3 & H4 & H5) G X ak1 id1.
  apply eff_event_inv in X. rewrite H3 in X.
  assert (E : forall r, specials (c_send s1) = of_mode ak m -> ak1 = ak -> id1 = id ->
    forall c' e0, m_call SM c (SaEnqueue r) = Some (c', e0) ->
    (s_call_failed e0 = false /\ exists m', track m' ak1 id1 c' s1) \/
    (exists t, false = true /\ SaEnqueue r = SaIdleReject t /\ e0 = SlIdleReject t (inr t) /\ id1 = true)).
  { intros r Q -> -> c' e0 C. destruct (server_call_effect K _ c m _ c' e0 H1 C) as (C1 & h & ->).
    left. split; [reflexivity|]. exists m. repeat split; auto. }
  destruct e as [g|h c0|h c0 st|h|h q|h ca st|h|h q|h st|h|d|st|q]; cbn [handle_server_event];
    try (destruct X; split; [reflexivity|]; repeat split; auto; fail).
  - destruct X as [X1 X2]. destruct st as [t b| |]; try discriminate.
    split; [reflexivity|]. split; [|apply E; auto].
    unfold modified_status. cbn [status_code status_text].
    destruct (sb_code b) as [[v| |x]|] eqn:B;
      first [ now apply rl_alert | apply rl_rejected; rewrite B; discriminate ].
  - split; [reflexivity|]. split; [constructor|]. intros c' r C.
    destruct (server_call_effect K _ c m _ c' r H1 C) as (C1 & r0 & -> & C2).
    destruct X as (sp & X1 & X2). destruct m; cbn in X1; try discriminate. injection X1 as X1 X3.
    left. cbn in C2. destruct r0; [|destruct C2; discriminate]. split; [reflexivity|].
    exists ExAuthenticateData. rewrite <- X3 in X2. split; [exact C1|]. split; [exact G|].
    split; [exact X2|]. split; [congruence|exact H5].
  - split; [reflexivity|]. split; [constructor|]. intros c' r C.
    destruct (server_call_effect K _ c m _ c' r H1 C) as (C1 & r0 & -> & C2).
    destruct X as (b & X1). destruct m; cbn in X1; try discriminate. injection X1 as X1 X3.
    left. cbn in C2. destruct r0; [|destruct C2; discriminate]. split; [reflexivity|].
    exists ExCommand. split; [exact C1|]. split; [exact G|]. split; [now rewrite <- X3|].
    split; [reflexivity|exact H5].
  - split; [reflexivity|]. split; [constructor|]. intros c' r C.
    destruct (server_call_effect K _ c m _ c' r H1 C) as (C1 & r0 & -> & C2).
    destruct X as (sp & X1 & X2). destruct m; cbn in X1; try discriminate. injection X1 as X3.
    left. cbn in C2. destruct r0; [|destruct C2; discriminate]. split; [reflexivity|].
    exists ExIdleDone. rewrite <- X3 in X2. split; [exact C1|]. split; [exact G|].
    split; [exact X2|]. split; [intros _; apply H4; discriminate|reflexivity].
  - split; [reflexivity|]. split; [constructor|]. intros c' r C.
    destruct (server_call_effect K _ c m _ c' r H1 C) as (C1 & r0 & -> & C2).
    destruct X as (b & X1). destruct m; cbn in X1; try discriminate; injection X1 as X1 X3.
    + left. cbn in C2. destruct r0; [|destruct C2; discriminate]. split; [reflexivity|].
      exists ExCommand. split; [exact C1|]. split; [exact G|]. split; [now rewrite <- X3|].
      split; [intros _; apply H4; discriminate|exact H5].
    + right. cbn in C2. destruct r0 as [h0|t]; [discriminate|]. destruct C2 as [_ ->].
      exists st. repeat split; auto.
  - destruct X as [X1 X2]. split; [reflexivity|]. split; [|apply E; auto].
    eapply rl_other; [exact I|reflexivity|apply filter_data_reduced].
  - destruct X as [X1 X2]. split; [reflexivity|]. split; [|apply E; auto].
    eapply rl_other; [exact I|reflexivity|apply filter_status_reduced].
  - destruct X as [X1 X2]. split; [reflexivity|]. split; [|apply E; auto].
    eapply rl_other; [exact I|reflexivity|apply filter_continuation_reduced].
Qed.

Definition hinv (p : pstate K Tc Ts) (l : list (plog K)) : Prop :=
  match p with
  | PsGreeting c s =>
      cgood K false (x_m s) false /\ specials (c_send (x_m s)) = [] /\
      client_events l = [] /\ server_events l = [] /\ calls_to_client l = [] /\ calls_to_server l = [] /\
      asked l = false /\ idling l = false /\ ~ In PlPanic l
  | PsLoop c s =>
      (exists m, track m (asked l) (idling l) (x_m c) (x_m s)) /\ forwards l /\ succeeded l /\ ~ In PlPanic l
  | PsEnd why =>
      (broken l \/ forwards l) /\ (~ In PlPanic l -> succeeded l) /\ (In PlPanic l -> culprit l)
  end.

Lemma hinv_start : forall c s gc, hinv (proxy_start K Tc Ts c s gc) [].
Proof.
  intros c s gc. cbn. split; [apply cgood_new|]. repeat split; auto.
Qed.

Lemma Forall2_snoc : forall A B (R : A -> B -> Prop) l1 l2 a b, Forall2 R l1 l2 -> R a b ->
  Forall2 R (l1 ++ [a]) (l2 ++ [b]).
Proof. intros. apply Forall2_app; auto. Qed.

Lemma hinv_ok : forall why (l : list (plog K)), forwards l -> succeeded l -> ~ In PlPanic l -> hinv (PsEnd why) l.
Proof. intros why l F S P. split; [now right|]. split; [auto|]. intro. contradiction. Qed.

(** Entries without calls and requests change nothing. *)
Lemma grow : forall (l l' : list (plog K)), forwards l -> succeeded l -> ~ In PlPanic l ->
  flat_map requested (client_events l') = [] -> filter is_report (server_events l') = [] ->
  calls_to_client l' = [] -> calls_to_server l' = [] -> ~ In PlPanic l' ->
  forwards (l ++ l') /\ succeeded (l ++ l') /\ ~ In PlPanic (l ++ l').
Proof.
  intros l l' [F1 F2] [S1 S2] P A1 A2 A3 A4 A5. unfold forwards, succeeded.
  rewrite client_events_app, server_events_app, calls_to_client_app, calls_to_server_app.
  rewrite flat_map_app, filter_app, A1, A2, A3, A4, !app_nil_r. repeat split; auto.
  rewrite in_app_iff. tauto.
Qed.

Lemma blank_abort : blank (@nil (plog K)) -> blank [@PlAbort K].
Proof. intros _. repeat split; auto. intros [F|[]]; discriminate. Qed.

Lemma client_side_inv : forall l c s a p1 l1,
  hinv (PsLoop c s) l -> client_side K Tc Ts fuel c s a = (p1, l1) -> hinv p1 (l ++ l1).
Proof.
  intros l c s a p1 l1 ((m & Tr) & F & S & P) E. unfold client_side in E.
  destruct (xstep Tc SM fuel c (io_act SM a)) as [c1 lx] eqn:X.
  pose proof (server_io K Tc fuel _ c m a c1 lx (proj1 Tr) X) as G.
  pose proof (io_idle Tc SM fuel _ _ _ _ X) as Idle.
  pose proof (client_io_log Tc fuel c a c1 lx X) as (A1 & A2 & A3 & A4 & A5 & A6 & A7).
  set (lm := map (@PlClient K) lx) in *.
  (* no request *)
  assert (Q : forall lz, blank lz -> flat_map requested (event_of (returned lx)) = [] ->
    forwards (l ++ lm ++ lz) /\ succeeded (l ++ lm ++ lz) /\ ~ In PlPanic (l ++ lm ++ lz)).
  { intros lz (B1 & B2 & B3 & B4 & _ & _ & B7) R. apply grow; auto.
    - rewrite client_events_app, flat_map_app, A1, B1. cbn. now rewrite app_nil_r.
    - now rewrite server_events_app, A2, B2.
    - now rewrite calls_to_client_app, A3, B3.
    - now rewrite calls_to_server_app, A4, B4.
    - rewrite in_app_iff. tauto. }
  assert (KA : forall lz, blank lz -> asked (l ++ lm ++ lz) = asked l /\ idling (l ++ lm ++ lz) = idling l).
  { intros lz (_ & _ & _ & _ & B5 & B6 & _).
    rewrite !asked_app, !idling_app, !fold_left_app, A5, A6, B5, B6. auto. }
  destruct (returned lx) as [r|] eqn:R.
  2:{ rewrite <- (app_nil_r lm) in E. destruct (Q [] blank_nil eq_refl) as (Q1 & Q2 & Q3).
      destruct (is_dead (x_f c1)); apply pair_equal_spec in E as [<- <-]; [now apply hinv_ok|].
      split; [|auto]. exists m. destruct (KA [] blank_nil) as [-> ->].
      destruct Tr as (_ & T2 & T3 & T4 & T5). repeat split; auto. }
  rewrite (Idle ltac:(discriminate)) in E. cbn [is_dead] in E.
  destruct (xstep Ts CM fuel s ACancel) as [s1 l2] eqn:C.
  apply cancel_step in C as (_ & Cm & _ & Cl).
  assert (B2 : blank (map (@PlServer K) l2)) by now apply blank_server_cancel.
  set (ln := map (@PlServer K) l2) in *.
  assert (M : x_m s1 = x_m s) by exact Cm.
  assert (QA : flat_map requested (event_of (Some r)) = [] ->
    hinv (PsEnd PeAborted) (l ++ (lm ++ ln) ++ [PlAbort])).
  { intro Hr. rewrite <- app_assoc.
    destruct (Q (ln ++ [PlAbort])) as (Q1 & Q2 & Q3); auto; [|now apply hinv_ok].
    apply blank_app; [exact B2|apply blank_abort, blank_nil]. }
  assert (QC : flat_map requested (event_of (Some r)) = [] -> sgood K proxy_soptions (x_m c1) m ->
    hinv (PsLoop c1 s1) (l ++ lm ++ ln)).
  { intros Hr Hg. destruct (Q ln B2 Hr) as (Q1 & Q2 & Q3). split; [|auto].
    exists m. destruct (KA ln B2) as [-> ->]. rewrite M.
    destruct Tr as (_ & T2 & T3 & T4 & T5). repeat split; auto. }
  destruct r as [e| | | | |];
    try (cbn [handle_client_event] in E; apply pair_equal_spec in E as [<- <-]; first [ now apply QA | now apply QC ]).
  destruct G as [G1 G2].
  pose proof (client_handled m _ _ _ _ (x_m c1) e Tr G1 G2) as H.
  destruct (handle_client_event K (@RetEvent SM e)) as [| |o u] eqn:HE.
  { contradiction. }
  { destruct H as [H1 H2]. apply pair_equal_spec in E as [<- <-].
    cbn [event_of flat_map] in Q. destruct (Q ln B2) as (Q1 & Q2 & Q3); [now rewrite H1|].
    split; [|auto]. exists m. destruct (KA ln B2) as [-> ->]. now rewrite M. }
  destruct H as [H1 H2]. rewrite M in E.
  destruct (m_call CM (x_m s) o) as [[ms le]|] eqn:HC.
  2:{ apply pair_equal_spec in E as [<- <-]. split; [left; right; rewrite !in_app_iff; cbn; auto|].
      assert (N : ~ In PlPanic (l ++ (lm ++ ln) ++ [PlServer XPanic])).
      { destruct B2 as (_ & _ & _ & _ & _ & _ & B7). rewrite !in_app_iff. cbn. intuition discriminate. }
      split; [|contradiction]. intros _. destruct S as [S1 S2]. destruct B2 as (B1 & B2 & B3 & B4 & _).
      unfold succeeded. rewrite !calls_to_client_app, !calls_to_server_app, A3, A4, B3, B4. cbn.
      now rewrite !app_nil_r. }
  assert (FW : forall lz, blank lz -> forwards (l ++ ((lm ++ ln) ++ [PlServer (@XCall CM o le)]) ++ lz)).
  { intros lz (Y1 & Y2 & Y3 & Y4 & _). destruct F as [F1 F2]. destruct B2 as (B1 & B2 & B3 & B4 & _).
    unfold forwards. rewrite !client_events_app, !server_events_app, !calls_to_client_app, !calls_to_server_app.
    rewrite A1, A2, A3, A4, B1, B2, B3, B4, Y1, Y2, Y3, Y4. cbn [client_events server_events calls_to_client calls_to_server app].
    rewrite !app_nil_r. cbn [event_of]. rewrite flat_map_app, !map_app, F1. cbn [flat_map map fst].
    rewrite H1. split; auto. }
  assert (NP : ~ In PlPanic (l ++ (lm ++ ln) ++ [PlServer (@XCall CM o le)])).
  { destruct B2 as (_ & _ & _ & _ & _ & _ & B7). rewrite !in_app_iff. cbn. intuition discriminate. }
  destruct (H2 ms le eq_refl) as [(H3 & m' & H4)|(d & -> & -> & -> & H3)].
  - rewrite H3, andb_false_r in E. apply pair_equal_spec in E as [<- <-].
    split; [|split; [rewrite <- (app_nil_r ((lm ++ ln) ++ _)); now apply FW, blank_nil|split; [|exact NP]]].
    + exists m'. destruct B2 as (_ & _ & _ & _ & B5 & B6 & _).
      rewrite !asked_app, !idling_app, !fold_left_app, A5, A6, B5, B6. exact H4.
    + destruct S as [S1 S2]. destruct B2 as (B1 & B2 & B3 & B4 & _).
      unfold succeeded. rewrite !calls_to_client_app, !calls_to_server_app, A3, A4, B3, B4. cbn.
      rewrite !app_nil_r. split; [|auto]. apply Forall_app. split; [auto|]. repeat constructor. exact H3.
  - cbn [c_call_failed andb] in E. apply pair_equal_spec in E as [<- <-].
    split; [|split].
    + right. destruct (FW []) as [W1 W2]; [apply blank_nil|]. rewrite app_nil_r in W1, W2.
      unfold forwards. rewrite app_assoc, client_events_app, server_events_app, calls_to_client_app, calls_to_server_app.
      cbn. rewrite !app_nil_r. auto.
    + intro N. contradiction N. rewrite !in_app_iff. cbn. auto.
    + intros _. replace (l ++ (((lm ++ ln) ++ _) ++ _)) with
        ((l ++ lm ++ ln) ++ [PlServer (@XCall CM (CaSetAuthenticateData d) (ClSetAuth d (inr d))); @PlPanic K])
        by (rewrite <- !app_assoc; reflexivity).
      apply cu_data.
      * destruct (KA ln B2) as [-> _]. exact H3.
      * destruct B2 as (_ & _ & _ & _ & _ & _ & B7). rewrite !in_app_iff. tauto.
Qed.

Lemma server_side_inv : forall l c s a p1 l1,
  hinv (PsLoop c s) l -> server_side K Tc Ts fuel c s a = (p1, l1) -> hinv p1 (l ++ l1).
Proof.
  intros l c s a p1 l1 ((m & Tr) & F & S & P) E. unfold server_side in E.
  destruct (xstep Ts CM fuel s (io_act CM a)) as [s1 lx] eqn:X.
  pose proof (client_io K Ts fuel s true a s1 lx (proj1 (proj2 Tr)) X) as G.
  pose proof (io_idle Ts CM fuel _ _ _ _ X) as Idle.
  pose proof (server_io_log Ts fuel s a s1 lx X) as (A1 & A2 & A3 & A4 & A5 & A6 & A7).
  set (lm := map (@PlServer K) lx) in *.
  (* no report *)
  assert (Q : forall lz, blank lz -> filter is_report (event_of (returned lx)) = [] ->
    forwards (l ++ lm ++ lz) /\ succeeded (l ++ lm ++ lz) /\ ~ In PlPanic (l ++ lm ++ lz)).
  { intros lz (B1 & B2 & B3 & B4 & _ & _ & B7) R. apply grow; auto.
    - now rewrite client_events_app, A1, B1.
    - rewrite server_events_app, filter_app, A2, B2. cbn. now rewrite app_nil_r.
    - now rewrite calls_to_client_app, A3, B3.
    - now rewrite calls_to_server_app, A4, B4.
    - rewrite in_app_iff. tauto. }
  assert (KA : forall lz, blank lz ->
    asked (l ++ lm ++ lz) = match returned lx with Some r => asked_step (asked l) (PlServer (XRet r)) | None => asked l end /\
    idling (l ++ lm ++ lz) = match returned lx with Some r => idling_step (idling l) (PlServer (XRet r)) | None => idling l end).
  { intros lz (_ & _ & _ & _ & B5 & B6 & _).
    rewrite !asked_app, !idling_app, !fold_left_app, A5, A6, B5, B6. auto. }
  destruct (returned lx) as [r|] eqn:R.
  2:{ rewrite <- (app_nil_r lm) in E. destruct (Q [] blank_nil eq_refl) as (Q1 & Q2 & Q3).
      destruct (is_dead (x_f s1)); apply pair_equal_spec in E as [<- <-]; [now apply hinv_ok|].
      split; [|auto]. exists m. destruct (KA [] blank_nil) as [-> ->].
      destruct Tr as (T1 & T2 & T3 & T4 & T5). destruct G as [G1 G2]. repeat split; auto. now rewrite G2. }
  rewrite (Idle ltac:(discriminate)) in E. cbn [is_dead] in E.
  destruct (xstep Tc SM fuel c ACancel) as [c1 l2] eqn:C.
  apply cancel_step in C as (_ & Cm & _ & Cl).
  assert (B2 : blank (map (@PlClient K) l2)) by now apply blank_client_cancel.
  set (ln := map (@PlClient K) l2) in *.
  assert (M : x_m c1 = x_m c) by exact Cm.
  assert (QA : filter is_report (event_of (Some r)) = [] ->
    hinv (PsEnd PeAborted) (l ++ (lm ++ ln) ++ [PlAbort])).
  { intro Hr. rewrite <- app_assoc.
    destruct (Q (ln ++ [PlAbort])) as (Q1 & Q2 & Q3); auto; [|now apply hinv_ok].
    apply blank_app; [exact B2|apply blank_abort, blank_nil]. }
  assert (QC : filter is_report (event_of (Some r)) = [] -> cgood K false (x_m s1) true ->
    specials (c_send (x_m s1)) = specials (c_send (x_m s)) ->
    (forall e, r <> RetEvent e) ->
    hinv (PsLoop c1 s1) (l ++ lm ++ ln)).
  { intros Hr Hg Hs Hn. destruct (Q ln B2 Hr) as (Q1 & Q2 & Q3). split; [|auto].
    exists m. destruct (KA ln B2) as [-> ->]. rewrite M.
    destruct Tr as (T1 & T2 & T3 & T4 & T5).
    assert (NE : asked_step (asked l) (PlServer (XRet r)) = asked l /\ idling_step (idling l) (PlServer (XRet r)) = idling l).
    { destruct r; cbn; auto. now contradiction (Hn e). }
    destruct NE as [-> ->]. repeat split; auto. now rewrite Hs. }
  destruct r as [e| | | | |];
    try (cbn [handle_server_event] in E; apply pair_equal_spec in E as [<- <-];
         first [ now apply QA | apply QC; [reflexivity|apply G|apply G|discriminate] ]).
  destruct G as (G1 & G2 & G3).
  pose proof (server_handled m _ _ _ _ (x_m s1) e Tr G1 G3) as H. cbv zeta in H.
  destruct (handle_server_event K (@RetEvent CM e)) as [| |o u] eqn:HE.
  { contradiction. }
  { destruct H as [H1 H2]. apply pair_equal_spec in E as [<- <-].
    destruct (Q ln B2) as (Q1 & Q2 & Q3); [cbn; now rewrite H1|].
    split; [|auto]. exists m. destruct (KA ln B2) as [-> ->]. now rewrite M. }
  destruct H as (H0 & H1 & H2). rewrite M in E.
  destruct (m_call SM (x_m c) o) as [[mc le]|] eqn:HC.
  2:{ apply pair_equal_spec in E as [<- <-]. split; [left; left; rewrite !in_app_iff; cbn; auto|].
      assert (N : ~ In PlPanic (l ++ (lm ++ ln) ++ [PlClient XPanic])).
      { destruct B2 as (_ & _ & _ & _ & _ & _ & B7). rewrite !in_app_iff. cbn. intuition discriminate. }
      split; [|contradiction]. intros _. destruct S as [S1 S2]. destruct B2 as (B1 & B2 & B3 & B4 & _).
      unfold succeeded. rewrite !calls_to_client_app, !calls_to_server_app, A3, A4, B3, B4. cbn.
      now rewrite !app_nil_r. }
  assert (FW : forall lz, blank lz -> forwards (l ++ ((lm ++ ln) ++ [PlClient (@XCall SM o le)]) ++ lz)).
  { intros lz (Y1 & Y2 & Y3 & Y4 & _). destruct F as [F1 F2]. destruct B2 as (B1 & B2 & B3 & B4 & _).
    unfold forwards. rewrite !client_events_app, !server_events_app, !calls_to_client_app, !calls_to_server_app.
    rewrite A1, A2, A3, A4, B1, B2, B3, B4, Y1, Y2, Y3, Y4. cbn [client_events server_events calls_to_client calls_to_server app].
    rewrite !app_nil_r. cbn [event_of]. split; [exact F1|].
    rewrite filter_app, !map_app. cbn [filter map fst]. rewrite H0. apply Forall2_snoc; auto. }
  assert (NP : ~ In PlPanic (l ++ (lm ++ ln) ++ [PlClient (@XCall SM o le)])).
  { destruct B2 as (_ & _ & _ & _ & _ & _ & B7). rewrite !in_app_iff. cbn. intuition discriminate. }
  destruct (H2 mc le eq_refl) as [(H3 & m' & H4)|(t & -> & -> & -> & H3)].
  - rewrite H3, andb_false_r in E. apply pair_equal_spec in E as [<- <-].
    split; [|split; [rewrite <- (app_nil_r ((lm ++ ln) ++ _)); now apply FW, blank_nil|split; [|exact NP]]].
    + exists m'. destruct B2 as (_ & _ & _ & _ & B5 & B6 & _).
      rewrite !asked_app, !idling_app, !fold_left_app, A5, A6, B5, B6. exact H4.
    + destruct S as [S1 S2]. destruct B2 as (B1 & B2 & B3 & B4 & _).
      unfold succeeded. rewrite !calls_to_client_app, !calls_to_server_app, A3, A4, B3, B4. cbn.
      rewrite !app_nil_r. split; [auto|]. apply Forall_app. split; [auto|]. repeat constructor. exact H3.
  - cbn [s_call_failed andb] in E. apply pair_equal_spec in E as [<- <-].
    split; [|split].
    + right. destruct (FW []) as [W1 W2]; [apply blank_nil|]. rewrite app_nil_r in W1, W2.
      unfold forwards. rewrite app_assoc, client_events_app, server_events_app, calls_to_client_app, calls_to_server_app.
      cbn. rewrite !app_nil_r. auto.
    + intro N. contradiction N. rewrite !in_app_iff. cbn. auto.
    + intros _. replace (l ++ (((lm ++ ln) ++ _) ++ _)) with
        ((l ++ lm ++ ln) ++ [PlClient (@XCall SM (SaIdleReject t) (SlIdleReject t (inr t))); @PlPanic K])
        by (rewrite <- !app_assoc; reflexivity).
      apply cu_idle.
      * destruct (KA ln B2) as [_ ->]. exact H3.
      * destruct B2 as (_ & _ & _ & _ & _ & _ & B7). rewrite !in_app_iff. tauto.
Qed.

Lemma greeting_side_inv : forall gs l c s a p1 l1,
  hinv (PsGreeting c s) l -> greeting_side K Tc Ts fuel gs c s a = (p1, l1) -> hinv p1 (l ++ l1).
Proof.
  intros gs l c s a p1 l1 (G0 & S0 & C1 & C2 & C3 & C4 & C5 & C6 & C7) E. unfold greeting_side in E.
  destruct (xstep Ts CM fuel s (io_act CM a)) as [s1 lx] eqn:X.
  pose proof (client_io K Ts fuel s false a s1 lx G0 X) as G.
  pose proof (io_idle Ts CM fuel _ _ _ _ X) as Idle.
  pose proof (server_io_log Ts fuel s a s1 lx X) as (A1 & A2 & A3 & A4 & A5 & A6 & A7).
  set (lm := map (@PlServer K) lx) in *.
  assert (Q : forall lz, blank lz -> filter is_report (event_of (returned lx)) = [] ->
    forwards (l ++ lm ++ lz) /\ succeeded (l ++ lm ++ lz) /\ ~ In PlPanic (l ++ lm ++ lz)).
  { intros lz (B1 & B2 & B3 & B4 & _ & _ & B7) R. apply grow; auto.
    - unfold forwards. rewrite C1, C2, C3, C4. cbn. auto.
    - unfold succeeded. rewrite C3, C4. auto.
    - now rewrite client_events_app, A1, B1.
    - rewrite server_events_app, filter_app, A2, B2. cbn. now rewrite app_nil_r.
    - now rewrite calls_to_client_app, A3, B3.
    - now rewrite calls_to_server_app, A4, B4.
    - rewrite in_app_iff. tauto. }
  destruct (returned lx) as [r|] eqn:R.
  2:{ rewrite <- (app_nil_r lm) in E. destruct (Q [] blank_nil eq_refl) as (Q1 & Q2 & Q3).
      destruct (is_dead (x_f s1)); apply pair_equal_spec in E as [<- <-]; [now apply hinv_ok|].
      destruct G as [G1 G2]. rewrite app_nil_r in *. cbn [hinv].
      rewrite client_events_app, server_events_app, calls_to_client_app, calls_to_server_app, asked_app, idling_app.
      rewrite A1, A2, A3, A4, A5, A6, C1, C2, C3, C4, G2. repeat split; auto. }
  rewrite (Idle ltac:(discriminate)) in E. cbn [is_dead] in E.
  assert (QA : filter is_report (event_of (Some r)) = [] ->
    hinv (PsEnd PeAborted) (l ++ lm ++ [PlAbort])).
  { intro Hr. destruct (Q [PlAbort]) as (Q1 & Q2 & Q3); auto; [|now apply hinv_ok].
    apply blank_abort, blank_nil. }
  destruct r as [e| | | | |];
    try (apply pair_equal_spec in E as [<- <-]; now apply QA).
  destruct G as (G1 & G2 & G3).
  destruct e as [g|h c0|h c0 st|h|h q|h ca st|h|h q|h st|h|d|st|q]; try discriminate G2.
  apply pair_equal_spec in E as [<- <-].
  rewrite <- (app_nil_r lm). destruct (Q [] blank_nil eq_refl) as (Q1 & Q2 & Q3).
  split; [|auto]. exists ExCommand. apply eff_event_inv in G3 as [_ G3].
  rewrite app_nil_r, asked_app, idling_app, A5, A6, C5, C6.
  cbn [x_m]. split; [apply sgood_new|]. split; [exact G1|]. rewrite G3, S0. repeat split.
Qed.

Lemma pstep_inv : forall gs p l a p1 l1, hinv p l -> pstep K Tc Ts fuel gs p a = (p1, l1) -> hinv p1 (l ++ l1).
Proof.
  intros gs p l [b a] p1 l1 H E. destruct p as [c s|c s|why]; destruct b; cbn [pstep] in E;
    try (injection E as <- <-; now rewrite app_nil_r).
  - eapply greeting_side_inv; eauto.
  - eapply server_side_inv; eauto.
  - eapply client_side_inv; eauto.
Qed.

Lemma prun_ind : forall gs (I : pstate K Tc Ts -> list (plog K) -> Prop),
  (forall p l a p1 l1, I p l -> pstep K Tc Ts fuel gs p a = (p1, l1) -> I p1 (l ++ l1)) ->
  forall acts p l p1 l1, I p l -> prun K Tc Ts fuel gs p acts = (p1, l1) -> I p1 (l ++ l1).
Proof.
  intros gs I H. induction acts as [|a acts IH]; intros p l p1 l1 Hp E; cbn in E.
  - injection E as <- <-. now rewrite app_nil_r.
  - destruct (pstep K Tc Ts fuel gs p a) as [p2 l2] eqn:S.
    destruct (prun K Tc Ts fuel gs p2 acts) as [p3 l3] eqn:R. injection E as <- <-.
    rewrite app_assoc. eapply IH; [|exact R]. eapply H; eauto.
Qed.

Theorem prun_inv : forall gs gc c s acts p l,
  prun K Tc Ts fuel gs (proxy_start K Tc Ts c s gc) acts = (p, l) -> hinv p l.
Proof.
  intros gs gc c s acts p l E.
  apply (prun_ind gs hinv (pstep_inv gs) acts _ [] p l (hinv_start c s gc) E).
Qed.
End Inv.
