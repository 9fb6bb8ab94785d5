(** One step of the proxy preserves its invariant: nothing it forwards is refused. *)
From Coq Require Import List NArith Bool PeanoNat Lia.
From Verif Require Import Base Types Codec Handle Receive ClientSend Client ServerSend Server
  SpecFraming SpecClient SpecServer System SpecSystem SpecSystemLive SystemLog SpecViews SystemViews
  Stream StreamMachine SpecStream Net SpecNet NetApp NetThms ProxyEffect ClientFit RelayFit
  ProxyUtil Proxy RelayGlue Relay SpecRelay RelayInv RelayOrder.
From Verif Require ClientInv SpecProxy ProxyFilter.
Import ListNotations.

(** The AUTHENTICATE or IDLE that the server is told about was forwarded last, and is not
    finished. *)
Definition the_open (P : command -> Prop) (sl : list slog) (cl : list clog) : Prop :=
  exists h c pre, open_cmds cl = [(h, c)] /\ enqueued cl = pre ++ [(h, c)] /\ P c /\
    open_tag sl = Some (ctag c).
Definition open_of (m : expected) (sl : list slog) (cl : list clog) : Prop :=
  match m with
  | ExCommand => open_cmds cl = []
  | ExAuthenticateData => the_open is_auth sl cl
  | ExIdleAccept | ExIdleDone => the_open is_idle sl cl
  end.

Definition responses (cl : list clog) : list response := reported_all (events cl).

Record ginv (sl : list slog) (cl : list clog) : Prop := {
  gi_told : told sl = calls cl;
  gi_open : open_of (smode sl) sl cl;
  gi_due : asked sl = due cl;
  gi_auth : due cl = true -> smode sl = ExAuthenticateData;
  gi_idles : idles cl = expected_eqb (smode sl) ExIdleDone;
  gi_done : forall t, finished cl t -> In t (completed sl);
  gi_order : in_order cl;
  gi_resp : Forall2 passed (responses cl) (flat_map accepted sl)
}.

(** The same at the end: what was told last may be lost. *)
Record gend (sl : list slog) (cl : list clog) : Prop := {
  ge_told : exists rest, told sl = calls cl ++ rest;
  ge_order : in_order cl;
  ge_resp : exists got rest, responses cl = got ++ rest /\ length rest <= 1 /\ Forall2 passed got (flat_map accepted sl)
}.

Lemma ginv_gend : forall sl cl, ginv sl cl -> gend sl cl.
Proof.
  intros sl cl [H1 H2 H3 H4 H5 H6 H7 H8]. split; auto.
  - exists []. now rewrite app_nil_r.
  - exists (responses cl), []. rewrite app_nil_r. split; [reflexivity|]. split; [cbn; lia|exact H8].
Qed.

Lemma responses_app : forall a b, responses (a ++ b) = responses a ++ responses b.
Proof.
  intros a b. unfold responses. rewrite ClientInv.events_app.
  induction (events a) as [|e es IH]; [reflexivity|]. cbn. destruct (reported e); rewrite ?IH; reflexivity.
Qed.

Lemma responses_one : forall x, length (responses [ClNext x]) <= 1.
Proof. intros [[]| | | | | |]; cbn; lia. Qed.

Lemma auth_not_regular : forall c, is_auth c -> ~ regular c.
Proof. intros c (m & i & H) (p & R). congruence. Qed.
Lemma idle_not_regular : forall c, is_idle c -> ~ regular c.
Proof. intros c H (p & R). unfold is_idle in H. congruence. Qed.
Lemma auth_not_idle : forall c, is_auth c -> ~ is_idle c.
Proof. intros c (m & i & H) R. unfold is_idle in R. congruence. Qed.

Lemma auth_closing : forall l h c, all_fitting l -> oldest l = Some (h, c) -> is_auth c -> closing l = false.
Proof.
  intros l h c F O A. destruct (closing l) eqn:C; [|reflexivity].
  destruct (fit_closing l F C) as (h0 & c0 & E & Hi). rewrite O in E. injection E as <- <-.
  now apply auth_not_idle in A.
Qed.

(** The oldest command determines what the server expects. *)
Lemma open_mode : forall sl cl h c, ginv sl cl -> oldest cl = Some (h, c) -> ~ regular c -> closing cl = false ->
  exists pre, open_cmds cl = [(h, c)] /\ enqueued cl = pre ++ [(h, c)] /\
    length (enqueued cl) = S (length (terminals cl)) /\ open_tag sl = Some (ctag c) /\
    (is_auth c -> smode sl = ExAuthenticateData) /\
    (is_idle c -> smode sl = ExIdleAccept \/ smode sl = ExIdleDone).
Proof.
  intros sl cl h c G O R C. destruct (open_oldest cl h c O R C) as (rest & P1 & P2).
  pose proof (gi_open _ _ G) as H. unfold open_of in H.
  destruct (smode sl); [congruence| | |];
    destruct H as (h1 & c1 & pre & H1 & H2 & H3 & H4);
    destruct (open_alone cl h c _ pre O R C H1 H2) as [E E']; injection E as -> ->;
    exists pre; repeat split; auto; intro A.
  - now apply auth_not_idle in H3.
  - now apply auth_not_idle in A.
  - now apply auth_not_idle in A.
Qed.

Ltac app_step :=
  rewrite ?told_app, ?calls_app, ?smode_app, ?asked_app, ?due_app, ?idles_app, ?completed_app,
    ?open_tag_app, ?responses_app, ?flat_map_app;
  cbn [told calls flat_map entry_request event_request call_request app fold_left smode_step asked_step
    due_step idles_step completed_from open_step accepted responses events filter reported_all reported new_command opt_list
    map is_terminal]; rewrite ?app_nil_r.

(** ** Towards the server *)

Lemma up_quiet : forall sl cl x, ginv sl cl ->
  entry_request (SlNext x) = [] -> smode_step (smode sl) (SlNext x) = smode sl ->
  asked_step (asked sl) (SlNext x) = asked sl -> open_step (open_tag sl) (SlNext x) = open_tag sl ->
  completed_from (open_tag sl) [SlNext x] = [] ->
  ginv (sl ++ [SlNext x]) cl.
Proof.
  intros sl cl x [H1 H2 H3 H4 H5 H6 H7 H8] Q1 Q2 Q3 Q4 Q5.
  assert (E : smode (sl ++ [SlNext x]) = smode sl) by (rewrite smode_app; exact Q2).
  assert (E' : open_tag (sl ++ [SlNext x]) = open_tag sl) by (rewrite open_tag_app; exact Q4).
  split; rewrite ?E; auto.
  - rewrite told_app. cbn [told flat_map]. rewrite Q1. now rewrite !app_nil_r.
  - unfold open_of, the_open in *. now rewrite E'.
  - rewrite asked_app. cbn [fold_left]. congruence.
  - intros t Ht. rewrite completed_app. apply in_or_app. left. auto.
  - rewrite flat_map_app. cbn. now rewrite app_nil_r.
Qed.

Lemma told_only : forall sl cl e, ginv sl cl -> gend (sl ++ [SlNext (IEvent e)]) cl.
Proof.
  intros sl cl e G. apply ginv_gend in G as [[rest H1] H2 (got & r2 & H3 & H3' & H4)]. split; auto.
  - rewrite told_app, H1. exists (rest ++ told [SlNext (IEvent e)]). now rewrite app_assoc.
  - exists got, r2. split; [exact H3|]. split; [exact H3'|]. rewrite flat_map_app. cbn. now rewrite app_nil_r.
Qed.

Lemma up_step : forall ended sl cl sl1 cl1 b,
  ginv sl cl -> upward ended sl1 cl1 b ->
  all_fitting (cl ++ cl1) -> all_modal (sl ++ sl1) -> data_asked (sl ++ sl1) ->
  b = false /\ (ginv (sl ++ sl1) (cl ++ cl1) \/ (ended = true /\ gend (sl ++ sl1) (cl ++ cl1))).
Proof.
  intros ended sl cl sl1 cl1 b G U F M D.
  destruct U as [|x|g|h r|e c h E|d h|d d' E|r|e E].
  - split; [reflexivity|]. left. now rewrite !app_nil_r.
  - split; [reflexivity|]. left. rewrite app_nil_r. now apply up_quiet.
  - split; [reflexivity|]. left. rewrite app_nil_r. now apply up_quiet.
  - split; [reflexivity|]. left. rewrite app_nil_r. now apply up_quiet.
  - (* a command *)
    split; [reflexivity|]. left. pose proof (fit_app _ _ F) as F0.
    destruct (M sl _ [] eq_refl) as [X _].
    assert (Md : smode sl = ExCommand) by (destruct e; try discriminate; cbn in X; [exact (proj1 X)|exact X..]).
    destruct G as [H1 H2 H3 H4 H5 H6 H7 H8]. rewrite Md in H2, H5. cbn in H2.
    assert (Dn : due cl = false) by (destruct (due cl); [specialize (H4 eq_refl); congruence|reflexivity]).
    assert (Op : forall P : command -> Prop, is_special (h, c) = true -> P c ->
      open_tag (sl ++ [SlNext (IEvent e)]) = Some (ctag c) ->
      the_open P (sl ++ [SlNext (IEvent e)]) (cl ++ [ClEnqueue c h])).
    { intros P Sp HP Ht. exists h, c, (enqueued cl). rewrite open_enqueue, H2 by exact F0.
      split; [cbn [filter app]; now rewrite Sp|]. split; [now rewrite enqueued_snoc|]. now split. }
    assert (Rs : responses (cl ++ [ClEnqueue c h]) = responses cl).
    { rewrite responses_app. cbn. now rewrite app_nil_r. }
    assert (Or : in_order (cl ++ [ClEnqueue c h])) by now apply order_enqueue.
    assert (Fi : forall t, finished (cl ++ [ClEnqueue c h]) t -> (regular c -> In (ctag c) (completed (sl ++ [SlNext (IEvent e)]))) ->
      In t (completed (sl ++ [SlNext (IEvent e)]))).
    { intros t Ht Hr. apply finished_enqueue in Ht as [Ht|[Ht1 <-]]; [|auto| exact F0].
      rewrite completed_app. apply in_or_app. auto. }
    destruct e as [g|h0 r|c0|ca|d|t| ]; try discriminate; cbn in E; injection E as <-.
    + destruct X as [_ [p Hp]]. split.
      * app_step. cbn. now rewrite H1.
      * app_step. rewrite Md. cbn. rewrite open_enqueue, H2 by exact F0. cbn. unfold is_special. cbn. now rewrite Hp.
      * app_step. exact H3.
      * app_step. rewrite Dn. discriminate.
      * app_step. now rewrite Md.
      * intros t Ht. apply Fi; [exact Ht|]. intros _. rewrite completed_app. cbn. apply in_or_app. right. now left.
      * exact Or.
      * rewrite Rs. app_step. exact H8.
    + assert (Na : is_auth (command_of_authenticate ca)) by (red; cbn; eauto). split.
      * app_step. cbn. now rewrite H1.
      * app_step. apply Op; [reflexivity|exact Na|]. app_step. reflexivity.
      * app_step. now rewrite Dn.
      * app_step. rewrite Dn. discriminate.
      * app_step. exact H5.
      * intros t Ht. apply Fi; [exact Ht|]. intro R. now apply auth_not_regular in Na.
      * exact Or.
      * rewrite Rs. app_step. exact H8.
    + assert (Na : is_idle (Command t BIdle)) by reflexivity. split.
      * app_step. cbn. now rewrite H1.
      * app_step. apply Op; [reflexivity|exact Na|]. app_step. reflexivity.
      * app_step. exact H3.
      * app_step. rewrite Dn. discriminate.
      * app_step. exact H5.
      * intros t0 Ht. apply Fi; [exact Ht|]. intro R. now apply idle_not_regular in Na.
      * exact Or.
      * rewrite Rs. app_step. exact H8.
  - (* data *)
    split; [reflexivity|]. left. pose proof (fit_app _ _ F) as F0.
    destruct (M sl _ [] eq_refl) as [X _]. cbn in X.
    destruct (fit_last _ _ F) as (Du & c & O & Ac).
    pose proof (auth_closing _ _ _ F0 O Ac) as C.
    destruct (open_mode sl cl h c G O (auth_not_regular _ Ac) C) as (pre & P1 & P2 & P3 & P4 & _).
    destruct G as [H1 H2 H3 H4 H5 H6 H7 H8]. split.
    + app_step. now rewrite H1.
    + app_step. rewrite X. exists h, c, pre. rewrite open_same, enqueued_snoc, open_tag_app by (auto; now rewrite closing_app).
      rewrite app_nil_r. auto.
    + app_step. reflexivity.
    + app_step. discriminate.
    + app_step. exact H5.
    + intros t Ht. apply finished_quiet in Ht; [|reflexivity|discriminate].
      rewrite completed_app. apply in_or_app. auto.
    + now apply order_answer.
    + app_step. exact H8.
  - (* refused data *)
    exfalso. pose proof (fit_last _ _ F) as X. cbn in X.
    specialize (D sl d [] eq_refl). rewrite (gi_due _ _ G) in D. congruence.
  - (* DONE *)
    split; [reflexivity|]. left. pose proof (fit_app _ _ F) as F0.
    destruct (M sl _ [] eq_refl) as [X _]. cbn in X.
    pose proof (fit_last _ _ F) as X1. cbn in X1.
    pose proof (gi_idles _ _ G) as Gi. rewrite X in Gi. cbn in Gi.
    destruct r as [h|]; [|congruence]. destruct X1 as (_ & C & c & O & Ac).
    pose proof (idle_not_regular _ Ac) as Nr.
    destruct (open_mode sl cl h c G O Nr C) as (pre & P1 & P2 & P3 & P4 & _).
    pose proof (open_done cl h c F0 O Nr C) as Od. rewrite P1 in Od. injection Od as Od.
    destruct G as [H1 H2 H3 H4 H5 H6 H7 H8]. split.
    + app_step. now rewrite H1.
    + app_step. cbn [open_of]. symmetry. exact Od.
    + app_step. exact H3.
    + app_step. intro Q. specialize (H4 Q). congruence.
    + app_step. reflexivity.
    + intros t Ht. rewrite completed_app. apply in_or_app.
      apply (finished_done _ _ _ _ _ O) in Ht as [Ht|<-]; [left; auto|right].
      cbn. rewrite P4. now left.
    + now apply order_answer.
    + app_step. exact H8.
  - split; [reflexivity|]. right. split; [exact E|]. rewrite app_nil_r. now apply told_only.
Qed.

(** ** Towards the client *)

Lemma dn_ginv : forall sl cl x ys, ginv sl cl ->
  told ys = [] ->
  open_of (smode (sl ++ ys)) (sl ++ ys) (cl ++ [ClNext x]) ->
  asked (sl ++ ys) = due (cl ++ [ClNext x]) ->
  (due (cl ++ [ClNext x]) = true -> smode (sl ++ ys) = ExAuthenticateData) ->
  idles (cl ++ [ClNext x]) = expected_eqb (smode (sl ++ ys)) ExIdleDone ->
  Forall2 passed (responses [ClNext x]) (flat_map accepted ys) ->
  ginv (sl ++ ys) (cl ++ [ClNext x]).
Proof.
  intros sl cl x ys [H1 H2 H3 H4 H5 H6 H7 H8] Q1 Q2 Q3 Q4 Q5 Q6. split; auto.
  - rewrite told_app, calls_app, Q1, H1. cbn. now rewrite !app_nil_r.
  - intros t Ht. apply finished_quiet in Ht; [|reflexivity|discriminate].
    rewrite completed_app. apply in_or_app. auto.
  - apply order_quiet; try reflexivity; [|exact H7].
    destruct x as [[]| | | | | |]; reflexivity.
  - rewrite responses_app, flat_map_app. now apply Forall2_app.
Qed.

Lemma gend_event : forall sl cl x, ginv sl cl -> gend sl (cl ++ [ClNext x]).
Proof.
  intros sl cl x G. pose proof (gi_resp _ _ G) as H4. apply ginv_gend in G as [[rest H1] H2 _]. split.
  - rewrite calls_app. exists rest. cbn. now rewrite app_nil_r.
  - apply order_quiet; try reflexivity; [|exact H2]. destruct x as [[]| | | | | |]; reflexivity.
  - rewrite responses_app. exists (responses cl), (responses [ClNext x]). split; [reflexivity|].
    split; [apply responses_one|exact H4].
Qed.

Lemma open_of_same : forall m sl cl sl' cl', open_of m sl cl -> open_cmds cl' = open_cmds cl ->
  enqueued cl' = enqueued cl -> open_tag sl' = open_tag sl -> open_of m sl' cl'.
Proof.
  intros m sl cl sl' cl' H E1 E2 E3. unfold open_of, the_open in *. now rewrite E1, E2, E3.
Qed.

Lemma polite_snoc : forall sl e, polite sl -> polite_entry sl e -> polite (sl ++ [e]).
Proof.
  intros sl e P Pe l1 e1 l2 E. apply app_split in E as [(z & E1)|(z & -> & E2)].
  - eapply P; eauto.
  - destruct z as [|y z]; [|destruct z; discriminate]. injection E2 as -> _. now rewrite app_nil_r.
Qed.

(** An event that leaves the exchanges alone. *)
Lemma dn_neutral : forall sl cl x ys, ginv sl cl -> all_fitting cl ->
  open_cmds (cl ++ [ClNext x]) = open_cmds cl ->
  due_step (due cl) (ClNext x) = due cl -> idles_step (idles cl) (ClNext x) = idles cl ->
  (ys = [] \/ exists r h, ys = [SlEnqueue r h]) ->
  Forall2 passed (responses [ClNext x]) (flat_map accepted ys) ->
  ginv (sl ++ ys) (cl ++ [ClNext x]).
Proof.
  intros sl cl x ys G F Eo Ed Ei Hy Hp.
  assert (Es : smode (sl ++ ys) = smode sl /\ asked (sl ++ ys) = asked sl /\ open_tag (sl ++ ys) = open_tag sl /\ told ys = []).
  { rewrite smode_app, asked_app, open_tag_app. now destruct Hy as [->|(r & h & ->)]. }
  destruct Es as (E1 & E2 & E3 & E4).
  apply dn_ginv; auto; rewrite ?E1, ?E2, ?due_app, ?idles_app; cbn [fold_left]; rewrite ?Ed, ?Ei.
  - eapply open_of_same; [exact (gi_open _ _ G)| | |]; auto.
    rewrite enqueued_snoc. apply app_nil_r.
  - exact (gi_due _ _ G).
  - exact (gi_auth _ _ G).
  - exact (gi_idles _ _ G).
Qed.

Lemma regular_completed : forall sl cl h c, ginv sl cl -> oldest cl = Some (h, c) -> regular c ->
  In (ctag c) (completed sl).
Proof.
  intros sl cl h c G O R. apply (gi_done _ _ G). exists (length (terminals cl)), h, c. auto.
Qed.

Lemma granted_s : forall A B b (r : A + B), granted b r -> b = true -> exists x, r = inl x.
Proof. intros A B b r H ->. exact H. Qed.

Lemma modified_kind : forall c b, sb_kind b = SkBad ->
  exists b', modified_status c (StTagged (ctag c) b) = StTagged (ctag c) b' /\
    passed (RStatus (StTagged (ctag c) b)) (RStatus (StTagged (ctag c) b')).
Proof.
  intros c b Hk. unfold modified_status. cbn [status_code status_text].
  destruct (sb_code b) as [[v| |x]|] eqn:E; eexists; (split; [reflexivity|]);
    first [ now apply pa_alert | apply pa_rejected; [exact Hk|rewrite E; discriminate] ].
Qed.

Lemma dn_step : forall ended sl cl cl1 sl1 b,
  ginv sl cl -> downward ended cl1 sl1 b -> polite sl ->
  all_fitting (cl ++ cl1) -> all_modal (sl ++ sl1) -> all_expected (cl ++ cl1) ->
  b = false /\ (ginv (sl ++ sl1) (cl ++ cl1) \/ (ended = true /\ gend (sl ++ sl1) (cl ++ cl1))) /\
  polite (sl ++ sl1).
Proof.
  intros ended sl cl cl1 sl1 b G U P F M X.
  pose proof (fit_app _ _ F) as F0.
  destruct U as [|x|e E|e r h E|h q r b E1 E2|h ca t r b E1 E2|h q r b E1 E2|h t r b E1 E2|e E].
  - split; [reflexivity|]. rewrite !app_nil_r. auto.
  - split; [reflexivity|]. rewrite app_nil_r. split; [left|exact P].
    rewrite <- (app_nil_r sl). apply dn_neutral; auto; [|constructor].
    apply open_same; auto. now rewrite closing_app.
  - (* no response *)
    split; [reflexivity|]. rewrite app_nil_r. split; [left|exact P].
    pose proof (fit_last _ _ F) as Fe.
    assert (Ho : open_cmds (cl ++ [ClNext (IEvent e)]) = open_cmds cl).
    { destruct e; try discriminate E; cbn in Fe; try (apply open_same; [exact F0|reflexivity|reflexivity|now rewrite closing_app]).
      - destruct Fe as [Fe1 Fe2]. eapply open_regular; eauto.
      - destruct Fe as [Fe1 Fe2]. now apply open_closed. }
    rewrite <- (app_nil_r sl). apply dn_neutral; auto; try (destruct e; try discriminate E; reflexivity).
    destruct e; try discriminate E; constructor.
  - (* a response without an exchange *)
    split; [reflexivity|].
    pose proof (fit_last _ _ F) as Fe. specialize (X cl e [] eq_refl).
    assert (Ho : open_cmds (cl ++ [ClNext (IEvent e)]) = open_cmds cl).
    { destruct e; try discriminate E; cbn in Fe; try (apply open_same; [exact F0|reflexivity|reflexivity|now rewrite closing_app]).
      destruct Fe as [Fe1 [Fe2 _]]. eapply open_regular; eauto. }
    assert (Hp : passed (match reported e with Some r => r | None => r end) r /\ polite_entry sl (SlEnqueue r h)).
    { destruct e; try discriminate E; cbn in E; injection E as <-; cbn [reported].
      - destruct Fe as (O & R & b & -> & Hk). destruct (modified_kind c b Hk) as (b' & -> & Hp).
        split; [exact Hp|]. cbn. eapply regular_completed; eauto.
      - split; [apply pa_reduced, ProxyFilter.filter_data_reduced|exact I].
      - split; [apply pa_reduced, ProxyFilter.filter_status_reduced|].
        destruct s as [t b|b|cc tt]; cbn; auto. cbn in X. now apply (gi_done _ _ G).
      - contradiction. }
    destruct Hp as [Hp Pe]. split; [left|now apply polite_snoc].
    apply dn_neutral; eauto; try (destruct e; try discriminate E; reflexivity).
    destruct e; try discriminate E; (constructor; [exact Hp|constructor]).
  - (* AUTHENTICATE: a continuation request *)
    destruct (fit_last _ _ F) as (Du & c & O & Ac).
    pose proof (auth_closing _ _ _ F0 O Ac) as C.
    destruct (open_mode sl cl h c G O (auth_not_regular _ Ac) C) as (pre & P1 & P2 & P3 & P4 & Md & _).
    specialize (Md Ac). destruct (M sl _ [] eq_refl) as [_ Mr]. cbn in Mr. rewrite Md in Mr.
    destruct Mr as [h0 ->]. cbn in E1. subst b. split; [reflexivity|].
    split; [left|]; [|apply polite_snoc; [exact P|]; cbn; now rewrite (gi_due _ _ G)].
    apply dn_ginv; auto; app_step; rewrite ?Md; auto.
    + exists h, c, pre. rewrite open_same, enqueued_snoc, open_tag_app by (auto; now rewrite closing_app).
      rewrite app_nil_r. auto.
    + rewrite (gi_idles _ _ G), Md. reflexivity.
    + cbn. repeat constructor.
  - (* AUTHENTICATE: the end *)
    destruct (fit_last _ _ F) as (O & bd & ->). specialize (X cl _ [] eq_refl). cbn in X.
    assert (Ac : is_auth (command_of_authenticate ca)) by (red; cbn; eauto).
    pose proof (auth_closing _ _ _ F0 O Ac) as C.
    pose proof (auth_not_regular _ Ac) as Nr.
    destruct (open_mode sl cl h _ G O Nr C) as (pre & P1 & P2 & P3 & P4 & Md & _).
    specialize (Md Ac). destruct (M sl _ [] eq_refl) as [_ Mr]. cbn in Mr. rewrite Md in Mr.
    destruct Mr as [h0 ->]. cbn in E1. subst b. split; [reflexivity|].
    split; [left|apply polite_snoc; [exact P|]].
    + pose proof (open_special cl (CeAuthenticateStatusReceived h ca (StTagged (ca_tag ca) bd)) h _ F0 eq_refl O Nr C) as Os.
      rewrite P1 in Os. injection Os as Os.
      apply dn_ginv; auto; app_step.
      * cbn [open_of]. auto.
      * now rewrite (gi_due _ _ G).
      * discriminate.
      * rewrite (gi_idles _ _ G), Md. reflexivity.
      * cbn. repeat constructor.
    + cbn. split; [now rewrite (gi_due _ _ G)|]. exists (ca_tag ca), bd. auto.
  - (* IDLE is accepted *)
    destruct (fit_last _ _ F) as (Du & C & c & O & Ac).
    destruct (open_mode sl cl h c G O (idle_not_regular _ Ac) C) as (pre & P1 & P2 & P3 & P4 & _ & Md).
    specialize (Md Ac). pose proof (gi_idles _ _ G) as Gi.
    assert (Md1 : smode sl = ExIdleAccept) by (destruct Md as [Md|Md]; [exact Md|]; rewrite Md in Gi; cbn in Gi; congruence).
    destruct (M sl _ [] eq_refl) as [_ Mr]. cbn in Mr. rewrite Md1 in Mr.
    destruct Mr as [h0 ->]. cbn in E1. subst b. split; [reflexivity|].
    split; [left|now apply polite_snoc].
    apply dn_ginv; auto; app_step; auto.
    + exists h, c, pre. rewrite open_same, enqueued_snoc, open_tag_app by (auto; now rewrite closing_app).
      rewrite app_nil_r. auto.
    + exact (gi_due _ _ G).
    + intro Q. apply (gi_auth _ _ G) in Q. congruence.
    + cbn. repeat constructor.
  - (* IDLE is rejected *)
    destruct (fit_last _ _ F) as (C & c & O & Ac & bd & ->). specialize (X cl _ [] eq_refl). cbn in X.
    pose proof (idle_not_regular _ Ac) as Nr.
    destruct (open_mode sl cl h c G O Nr C) as (pre & P1 & P2 & P3 & P4 & _ & Md).
    specialize (Md Ac). pose proof (gi_idles _ _ G) as Gi.
    assert (Md1 : smode sl = ExIdleAccept) by (destruct Md as [Md|Md]; [exact Md|]; rewrite Md in Gi; cbn in Gi; congruence).
    destruct (M sl _ [] eq_refl) as [_ Mr]. cbn in Mr. rewrite Md1 in Mr.
    destruct Mr as [h0 ->]. cbn in E1. subst b. split; [reflexivity|].
    split; [left|apply polite_snoc; [exact P|]].
    + pose proof (open_special cl (CeIdleRejected h (StTagged (ctag c) bd)) h _ F0 eq_refl O Nr C) as Os.
      rewrite P1 in Os. injection Os as Os.
      apply dn_ginv; auto; app_step.
      * cbn [open_of]. auto.
      * exact (gi_due _ _ G).
      * intro Q. apply (gi_auth _ _ G) in Q. congruence.
      * reflexivity.
      * cbn. repeat constructor.
    + cbn. exists (ctag c), bd. auto.
  - split; [reflexivity|]. rewrite app_nil_r. split; [right|exact P]. split; [exact E|]. now apply gend_event.
Qed.
