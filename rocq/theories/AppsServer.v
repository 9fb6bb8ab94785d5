(** The example servers: their assertions hold, and what they do. *)
From Coq Require Import List NArith Bool PeanoNat Lia.
From Coq Require String.
Import (notations) String.
From Verif Require Import Base Types Codec Handle Receive ClientSend Client ServerSend Server
  SpecFraming SpecClient SpecServer ServerInv System SpecSystem SystemLog ServerThms
  Stream StreamMachine SpecNet NetApp Apps SpecApps AppsProofs.
Import ListNotations.
Local Open Scope list_scope.

Lemma polite_snoc : forall A e, polite A -> polite_entry A e -> polite (A ++ [e]).
Proof.
  intros A e H He l1 x l2 E. destruct l2 as [|y l2] using rev_ind.
  - apply app_inj_tail in E as [-> ->]. exact He.
  - clear IHl2. rewrite app_comm_cons, app_assoc in E. apply app_inj_tail in E as [-> _].
    now apply (H l1 x l2).
Qed.

Lemma s_calls_app : forall a b, s_calls (a ++ b) = s_calls a ++ s_calls b.
Proof. intros. apply filter_app. Qed.
Lemma s_commands_app : forall a b, s_commands (a ++ b) = s_commands a ++ s_commands b.
Proof.
  induction a as [|e a IH]; intro b; [reflexivity|].
  destruct e as [| | | | | | |[[]| | | | | |]|]; cbn; now rewrite ?IH.
Qed.
Lemma s_enqueued_app : forall a b, s_enqueued (a ++ b) = s_enqueued a ++ s_enqueued b.
Proof. induction a as [|[] a IH]; intro b; cbn; now rewrite ?IH. Qed.
Lemma s_sent_app : forall a b, s_sent (a ++ b) = s_sent a ++ s_sent b.
Proof.
  induction a as [|e a IH]; intro b; [reflexivity|].
  destruct e as [| | | | | | |[[]| | | | | |]|]; cbn; now rewrite ?IH.
Qed.
Lemma s_statuses_app : forall a b, s_statuses (a ++ b) = s_statuses a ++ s_statuses b.
Proof.
  induction a as [|e a IH]; intro b; [reflexivity|].
  destruct e as [[]| | | | | | | |]; cbn; now rewrite ?IH.
Qed.

Definition last_idle_step (t : option tag) (e : slog) : option tag :=
  match e with SlNext (IEvent (SeIdleCommandReceived t')) => Some t' | _ => t end.
Lemma dones_app : forall a t b, dones t (a ++ b) = dones t a ++ dones (fold_left last_idle_step a t) b.
Proof.
  induction a as [|e a IH]; intros t b; [reflexivity|].
  destruct e as [| | | | | | |[[]| | | | | |]|]; cbn; rewrite ?IH; auto using app_assoc.
Qed.

Section Servers.
Context (K : Codecs).
Notation SM := (server_machine K).

Section Facts.
Context (g : hgen) (o : soptions) (gr : greeting).
Notation reached := (sreached K g o gr).

Lemma first_event : forall e, reached [sev e] -> e = SeGreetingSent gr.
Proof.
  intros e R. destruct (r_greeting_first K g o gr _ R) as [E|(rs & E)]; cbn in E; [discriminate|].
  now injection E as -> _.
Qed.
Lemma first_error : forall e, ~ reached [SlNext (IError e)].
Proof.
  intros e R. destruct (r_greeting_first K g o gr _ R) as [E|(rs & E)]; cbn in E; discriminate.
Qed.

Lemma r_not_idle : forall A r, reached (A ++ [SlNext r]) -> is_report r = true -> smode A <> ExIdleAccept.
Proof.
  intros A r (ops & s & ls & R & F) Hr. apply filter_split in F as (l1 & l2 & F & <- & _).
  rewrite shown_smode.
  destruct (s_reports _ _ _ _ _ _ _ R _ _ _ F Hr) as (l0 & raw & v & -> & _).
  rewrite <- app_assoc in F. cbn in F. rewrite smode_app. cbn.
  eapply s_idle_waits; [exact R|exact F].
Qed.

(** Stalling, with the mode. *)
Definition idle_stall (A : list slog) : Prop :=
  forall A1 t A2, A = A1 ++ sev (SeIdleCommandReceived t) :: A2 -> deaf A2 /\ smode A = ExIdleAccept.
Definition auth_stall (A : list slog) : Prop :=
  forall A1 ca A2, A = A1 ++ sev (SeCommandAuthenticateReceived ca) :: A2 ->
  no_command A2 /\ smode A = ExAuthenticateData.

Lemma idle_stall_nil : idle_stall [].
Proof. intros [|] t A2 E; discriminate. Qed.
Lemma auth_stall_nil : auth_stall [].
Proof. intros [|] t A2 E; discriminate. Qed.

Lemma idle_stall_snoc : forall A e, idle_stall A ->
  (smode A = ExIdleAccept -> (forall r, e = SlNext r -> is_report r = false) /\
     smode_step ExIdleAccept e = ExIdleAccept) ->
  idle_stall (A ++ [e]).
Proof.
  intros A e H He A1 t A2 E. destruct A2 as [|y A2] using rev_ind.
  - apply app_inj_tail in E as [-> ->]. split; [intros r []|]. now rewrite smode_app.
  - clear IHA2. rewrite app_comm_cons, app_assoc in E. apply app_inj_tail in E as [E <-].
    destruct (H _ _ _ E) as [D Hm]. destruct (He Hm) as [He1 He2]. split.
    + intros r Hin. apply in_app_or in Hin as [Hin|[->|[]]]; [now apply D|now apply He1].
    + rewrite smode_app, Hm. exact He2.
Qed.
Lemma auth_stall_snoc : forall A e, auth_stall A ->
  (smode A = ExAuthenticateData -> (forall x, e = SlNext (IEvent x) -> is_command x = false) /\
     smode_step ExAuthenticateData e = ExAuthenticateData) ->
  auth_stall (A ++ [e]).
Proof.
  intros A e H He A1 t A2 E. destruct A2 as [|y A2] using rev_ind.
  - apply app_inj_tail in E as [-> ->]. split; [intros r []|]. now rewrite smode_app.
  - clear IHA2. rewrite app_comm_cons, app_assoc in E. apply app_inj_tail in E as [E <-].
    destruct (H _ _ _ E) as [D Hm]. destruct (He Hm) as [He1 He2]. split.
    + intros r Hin. apply in_app_or in Hin as [Hin|[->|[]]]; [now apply D|now apply He1].
    + rewrite smode_app, Hm. exact He2.
Qed.

Lemma idle_stall_next : forall A r, idle_stall A -> reached (A ++ [SlNext r]) -> idle_stall (A ++ [SlNext r]).
Proof.
  intros A r H R. apply idle_stall_snoc; [exact H|]. intro Hm.
  assert (X : is_report r = false).
  { destruct (is_report r) eqn:E; [|reflexivity]. now contradiction (r_not_idle A r R E). }
  split; [intros r' [= <-]; exact X|]. destruct r as [[]| | | | | |]; try discriminate; reflexivity.
Qed.
Lemma auth_stall_next : forall A r, auth_stall A -> reached (A ++ [SlNext r]) -> auth_stall (A ++ [SlNext r]).
Proof.
  intros A r H R. apply auth_stall_snoc; [exact H|]. intro Hm.
  assert (X : forall x, r = IEvent x -> is_command x = false /\ x <> SeIdleDoneReceived).
  { intros x ->. pose proof (r_report_mode K g o gr _ R A x eq_refl) as M. rewrite Hm in M.
    destruct x; try discriminate M; now split. }
  split; [intros x [= E]; now apply X|].
  destruct r as [x| | | | | |]; try reflexivity. destruct (X x eq_refl) as [X1 X2].
  destruct x; try discriminate; try reflexivity. now contradiction X2.
Qed.
Lemma idle_stall_says : forall A, idle_stall A -> stalls_on_idle A.
Proof. intros A H A1 t A2 E. now apply (H A1 t). Qed.
Lemma auth_stall_says : forall A, auth_stall A -> stalls_on_authenticate A.
Proof. intros A H A1 t A2 E. now apply (H A1 t). Qed.

(** Only [enqueue_response] is called. *)
Definition only_enqueues (A : list slog) : Prop :=
  s_calls A = map (fun hr => SlEnqueue (snd hr) (fst hr)) (s_enqueued A).

Lemma sent_enqueued : forall A, reached A -> only_enqueues A ->
  exists rest, s_enqueued A = s_sent A ++ rest.
Proof.
  intros A R E. destruct (r_sent K g o gr A R) as (rest & S).
  set (f := fun e => match e with SeResponseSent h r => [(h, r)] | _ => [] end).
  exists (flat_map f rest).
  assert (X1 : flat_map f (filter is_sent_event (sevents A)) = s_sent A).
  { clear. induction A as [|e A IH]; [reflexivity|].
    destruct e as [| | | | | | |[[]| | | | | |]|]; cbn; now rewrite ?IH. }
  assert (X2 : flat_map f (SeGreetingSent gr :: sent_events (flat_map (scheduled_by o) A)) = s_enqueued A).
  { assert (Y : forall e, In e A -> match e with SlRx _ => False | SlAuthContinue _ _ | SlAuthFinish _ _
      | SlIdleAccept _ _ | SlIdleReject _ _ => False | _ => True end).
    { intros e Hin. destruct (s_call e) eqn:Ec; [|destruct e; try discriminate; exact I].
      assert (In e (s_calls A)) as Hi by (now apply filter_In). rewrite E in Hi.
      apply in_map_iff in Hi as (hr & <- & _). exact I. }
    clear -Y. cbn. unfold sent_events. induction A as [|e A IH]; [reflexivity|].
    cbn [flat_map]. rewrite !flat_map_app, IH by (intros e' He'; apply Y; now right).
    specialize (Y e (or_introl eq_refl)). destruct e as [| | | | | | |[[]| | | | | |]|]; try contradiction; reflexivity. }
  rewrite <- X2, S, flat_map_app. now rewrite X1.
Qed.
End Facts.

(** ** examples/server.rs *)
Notation P := (server_rs K).

Definition server_J (gr : greeting) (p : sp) (A : list slog) : Prop :=
  match p with
  | SpGreeting => A = []
  | SpMain hs =>
      greets gr A /\ map snd (s_enqueued A) = map no_to (s_commands A) /\
      map fst (s_enqueued A) = map fst (s_sent A) ++ hs
  end.
Definition server_G (A : list slog) : Prop :=
  polite A /\ idle_stall A /\ auth_stall A /\ only_enqueues A.

Lemma greets_snoc : forall gr A e, greets gr A -> greets gr (A ++ [e]).
Proof. intros gr A e (A2 & ->). eexists. reflexivity. Qed.

Lemma only_enqueues_next : forall A r, only_enqueues A -> only_enqueues (A ++ [SlNext r]).
Proof.
  intros A r H. unfold only_enqueues. rewrite s_calls_app, s_enqueued_app, map_app, H. reflexivity.
Qed.
Lemma only_enqueues_call : forall A r h, only_enqueues A -> only_enqueues (A ++ [SlEnqueue r h]).
Proof.
  intros A r h H. unfold only_enqueues. rewrite s_calls_app, s_enqueued_app, map_app, H. reflexivity.
Qed.
Lemma server_G_next : forall g o gr A r, server_G A -> sreached K g o gr (A ++ [SlNext r]) ->
  server_G (A ++ [SlNext r]).
Proof.
  intros g o gr A r (H1 & H2 & H3 & H4) R. split; [|split; [|split]].
  - apply polite_snoc; [exact H1|exact I].
  - eapply idle_stall_next; eauto.
  - eapply auth_stall_next; eauto.
  - now apply only_enqueues_next.
Qed.

Lemma handle_eqb_refl : forall h, handle_eqb h h = true.
Proof. intro h. unfold handle_eqb. now rewrite !N.eqb_refl. Qed.

Lemma server_app_ret : forall r, (forall e, r <> RetEvent e) ->
  server_app (XRet r : xlog SM) = [] \/ exists e, server_app (XRet r : xlog SM) = [SlNext (IError e)].
Proof. intros r H. destruct r; try (now left); [now contradiction (H e)|right; eexists; reflexivity]. Qed.

Lemma server_rs_inv : forall g o gr T fuel s f acts x (l : list (xlog SM)) st,
  xrun T SM fuel (@XState T SM s (server_new g o gr) f) acts = (x, l) -> psteps P l st ->
  pinv P server_app (sreached K g o gr) styped (server_J gr) server_G (fun _ => False) st
    (flat_map server_app l) /\ server_G (flat_map server_app l).
Proof.
  intros g o gr T fuel s f acts x l st. apply server_rule.
  - split; [reflexivity|]. split; [intros [|] ? ? E; discriminate|].
    split; [apply idle_stall_nil|]. split; [apply auth_stall_nil|reflexivity].
  - intros p A coin e HJ HG R.
    assert (HG' : server_G (A ++ [sev e])) by (eapply server_G_next; eauto).
    split; [exact HG'|]. destruct p as [|hs].
    + cbn in HJ. subst A. rewrite (first_event g o gr e R).
      cbn. split; [eexists; reflexivity|]. split; reflexivity.
    + destruct HJ as (H1 & H2 & H3).
      pose proof (greets_snoc gr A (sev e) H1) as Hgr.
      assert (N : s_commands [sev e] = [] -> s_sent [sev e] = [] -> server_J gr (SpMain hs) (A ++ [sev e])).
      { intros E1 E2. split; [exact Hgr|]. rewrite s_enqueued_app, s_commands_app, s_sent_app, E1, E2, !app_nil_r.
        now split. }
      destruct e as [g0|h r|c|ca|d|t|]; cbn [pr_event server_rs server_event];
        try (apply N; reflexivity).
      * destruct (sent_enqueued g o gr _ R) as (rest & S); [apply HG'|].
        rewrite s_enqueued_app, s_sent_app in S. cbn in S. rewrite app_nil_r in S.
        rewrite S, map_app, map_app in H3. cbn in H3. rewrite <- app_assoc in H3. cbn in H3.
        apply app_inv_head in H3. destruct hs as [|h' hs]; [discriminate|]. injection H3 as <- E3.
        unfold assert_same. rewrite handle_eqb_refl. cbn. split; [exact Hgr|].
        rewrite s_enqueued_app, s_commands_app, s_sent_app. cbn. rewrite !app_nil_r.
        split; [exact H2|]. rewrite S, !map_app, E3. reflexivity.
      * cbn. intros r Hr R1. destruct r; try contradiction. cbn in Hr. subst r.
        destruct HG' as (G1 & G2 & G3 & G4). split.
        -- split; [|split; [|split]].
           ++ apply polite_snoc; [exact G1|]. cbn. rewrite completed_app. apply in_or_app. right. now left.
           ++ apply idle_stall_snoc; [exact G2|]. intros _. split; [discriminate|reflexivity].
           ++ apply auth_stall_snoc; [exact G3|]. intros _. split; [discriminate|reflexivity].
           ++ now apply only_enqueues_call.
        -- split; [apply greets_snoc; exact Hgr|].
           rewrite !s_enqueued_app, !s_commands_app, !s_sent_app, !map_app. cbn. rewrite !app_nil_r, H2, H3.
           split; [reflexivity|]. now rewrite <- app_assoc.
  - intros p A r Hr HJ HG R. destruct (server_app_ret r Hr) as [E|(e & E)]; rewrite E in *.
    + now rewrite app_nil_r.
    + eapply server_G_next; eauto.
  - intros p A y b _ _ _ E. discriminate.
Qed.

(** ** examples/server_authenticate.rs *)
Definition sauth_J (gr : greeting) (p : sap) (A : list slog) : Prop :=
  match p with
  | SapGreeting => A = []
  | SapMain cur =>
      greets gr A /\ Forall2 answers_event (filter asks_answer (sevents A)) (s_calls A) /\
      match smode A with
      | ExAuthenticateData => exists t, cur = Some t /\ open_tag A = Some t
      | ExIdleDone => False
      | _ => cur = None
      end
  end.
Definition sauth_G (A : list slog) : Prop := polite A /\ idle_stall A.

Lemma expected_eqb_refl : forall m, expected_eqb m m = true.
Proof. destruct m; reflexivity. Qed.

Lemma sauth_answered : forall A e c, s_call c = true -> asks_answer e = true -> answers_event e c ->
  Forall2 answers_event (filter asks_answer (sevents A)) (s_calls A) ->
  Forall2 answers_event (filter asks_answer (sevents ((A ++ [sev e]) ++ [c]))) (s_calls ((A ++ [sev e]) ++ [c])).
Proof.
  intros A e c Hc He Ha F. rewrite !sevents_app, !s_calls_app, !filter_app.
  assert (E : sevents [c] = []) by (destruct c as [| | | | | | |[]|]; try discriminate; reflexivity).
  rewrite E. unfold s_calls at 2 3. cbn. rewrite Hc, He, !app_nil_r.
  apply Forall2_app; [exact F|]. now constructor.
Qed.

Lemma server_authenticate_rs_inv : forall g o gr T fuel s f acts x (l : list (xlog SM)) st,
  xrun T SM fuel (@XState T SM s (server_new g o gr) f) acts = (x, l) ->
  psteps (server_authenticate_rs K) l st ->
  pinv (server_authenticate_rs K) server_app (sreached K g o gr) styped (sauth_J gr) sauth_G
    (fun _ => False) st (flat_map server_app l) /\ sauth_G (flat_map server_app l).
Proof.
  intros g o gr T fuel s f acts x l st. apply server_rule.
  - split; [reflexivity|]. split; [intros [|] ? ? E; discriminate|apply idle_stall_nil].
  - intros p A coin e HJ HG R.
    assert (HG' : sauth_G (A ++ [sev e])).
    { destruct HG as [G1 G2]. split; [apply polite_snoc; [exact G1|exact I]|eapply idle_stall_next; eauto]. }
    split; [exact HG'|]. destruct p as [|cur].
    + cbn in HJ. subst A. rewrite (first_event g o gr e R).
      cbn. split; [eexists; reflexivity|]. split; constructor.
    + destruct HJ as (H1 & H2 & H3).
      pose proof (greets_snoc gr A (sev e) H1) as Hgr.
      pose proof (r_report_mode K g o gr _ R A e eq_refl) as Hm.
      assert (N : asks_answer e = false -> smode (A ++ [sev e]) = smode A -> open_tag (A ++ [sev e]) = open_tag A ->
        sauth_J gr (SapMain cur) (A ++ [sev e])).
      { intros E1 E2 E3. split; [exact Hgr|]. rewrite E2, E3. split; [|exact H3].
        rewrite sevents_app, s_calls_app, filter_app. cbn. rewrite E1. now rewrite !app_nil_r. }
      destruct HG' as [G1 G2].
      destruct e as [g0|h r|c|ca|d|t|]; cbn [pr_event server_authenticate_rs server_authenticate_event];
        try (apply N; [reflexivity| |]; now rewrite ?smode_app, ?open_tag_app).
      * (* command *)
        rewrite Hm in H3. subst cur. cbn. intros r Hr R1. destruct r; try contradiction. cbn in Hr. subst r.
        split; [split|].
        -- apply polite_snoc; [exact G1|]. cbn. rewrite completed_app. apply in_or_app. right. now left.
        -- apply idle_stall_snoc; [exact G2|]. intros _. split; [discriminate|reflexivity].
        -- split; [apply greets_snoc; exact Hgr|]. split.
           ++ apply sauth_answered; auto; cbn; auto.
           ++ rewrite !smode_app. cbn. now rewrite Hm.
      * (* AUTHENTICATE *)
        rewrite Hm in H3. subst cur.
        assert (M : smode (A ++ [sev (SeCommandAuthenticateReceived ca)]) = ExAuthenticateData)
          by (now rewrite smode_app).
        destruct coin; cbn; intros r Hr R1; destruct r; try contradiction; cbn in Hr; subst.
        -- pose proof (r_auth_continue K g o gr _ R1 _ _ _ eq_refl) as Hc. rewrite M in Hc. cbn in Hc.
           destruct r as [h|]; [|now destruct Hc]. cbn [unwrapped wp]. split; [split|].
           ++ apply polite_snoc; [exact G1|]. cbn. now rewrite asked_app.
           ++ apply idle_stall_snoc; [exact G2|]. rewrite M. discriminate.
           ++ split; [apply greets_snoc; exact Hgr|]. split.
              ** apply sauth_answered; auto; exact I.
              ** rewrite smode_app, M. cbn. eexists. split; [reflexivity|]. rewrite !open_tag_app. reflexivity.
        -- pose proof (r_auth_finish K g o gr _ R1 _ _ _ eq_refl) as Hc. rewrite M in Hc. cbn in Hc.
           destruct r as [h|]; [|now destruct Hc]. cbn [unwrapped wp]. split; [split|].
           ++ apply polite_snoc; [exact G1|]. cbn. rewrite asked_app. split; [reflexivity|].
              do 2 eexists. split; [reflexivity|]. now rewrite open_tag_app.
           ++ apply idle_stall_snoc; [exact G2|]. rewrite M. discriminate.
           ++ split; [apply greets_snoc; exact Hgr|]. split.
              ** apply sauth_answered; auto; cbn; auto.
              ** rewrite smode_app. reflexivity.
      * (* data *)
        rewrite Hm in H3. destruct H3 as (t & -> & Ht).
        assert (M : smode (A ++ [sev (SeAuthenticateDataReceived d)]) = ExAuthenticateData)
          by (now rewrite smode_app).
        destruct coin; cbn; intros r Hr R1; destruct r; try contradiction; cbn in Hr; subst.
        -- pose proof (r_auth_continue K g o gr _ R1 _ _ _ eq_refl) as Hc. rewrite M in Hc. cbn in Hc.
           destruct r as [h|]; [|now destruct Hc]. cbn [unwrapped wp]. split; [split|].
           ++ apply polite_snoc; [exact G1|]. cbn. now rewrite asked_app.
           ++ apply idle_stall_snoc; [exact G2|]. rewrite M. discriminate.
           ++ split; [apply greets_snoc; exact Hgr|]. split.
              ** apply sauth_answered; auto; exact I.
              ** rewrite smode_app, M. cbn. eexists. split; [reflexivity|]. rewrite !open_tag_app. exact Ht.
        -- pose proof (r_auth_finish K g o gr _ R1 _ _ _ eq_refl) as Hc. rewrite M in Hc. cbn in Hc.
           destruct r as [h|]; [|now destruct Hc]. cbn [unwrapped wp]. split; [split|].
           ++ apply polite_snoc; [exact G1|]. cbn. rewrite asked_app. split; [reflexivity|].
              do 2 eexists. split; [reflexivity|]. now rewrite open_tag_app.
           ++ apply idle_stall_snoc; [exact G2|]. rewrite M. discriminate.
           ++ split; [apply greets_snoc; exact Hgr|]. split.
              ** apply sauth_answered; auto; cbn; auto.
              ** rewrite smode_app. reflexivity.
      * (* IDLE *)
        rewrite Hm in H3. subst cur. cbn. split; [exact Hgr|]. split.
        -- rewrite sevents_app, s_calls_app, filter_app. cbn. now rewrite !app_nil_r.
        -- now rewrite smode_app.
      * (* DONE *)
        now rewrite Hm in H3.
  - intros p A r Hr HJ HG R. destruct (server_app_ret r Hr) as [E|(e & E)]; rewrite E in *.
    + now rewrite app_nil_r.
    + destruct HG as [G1 G2]. split; [apply polite_snoc; [exact G1|exact I]|eapply idle_stall_next; eauto].
  - intros p A y b _ _ _ E. discriminate.
Qed.

(** ** examples/server_idle.rs *)
Section ServerIdleRs.
Context (expunge : bytes).

Definition sidle_J (gr : greeting) (p : sip) (A : list slog) : Prop :=
  match p with
  | SipGreeting => A = []
  | SipMain cur =>
      greets gr A /\ s_statuses A = map idle_ok (dones None A) /\
      match smode A with
      | ExIdleAccept | ExIdleDone =>
          exists t, cur = Some t /\ open_tag A = Some t /\ fold_left last_idle_step A None = Some t
      | _ => True
      end
  end.
Definition sidle_G (A : list slog) : Prop := polite A /\ auth_stall A.

Lemma server_idle_rs_inv : forall g o gr T fuel s f acts x (l : list (xlog SM)) st,
  xrun T SM fuel (@XState T SM s (server_new g o gr) f) acts = (x, l) ->
  psteps (server_idle_rs K expunge) l st ->
  pinv (server_idle_rs K expunge) server_app (sreached K g o gr) styped (sidle_J gr) sidle_G
    (fun _ => False) st (flat_map server_app l) /\ sidle_G (flat_map server_app l).
Proof.
  intros g o gr T fuel s f acts x l st. apply server_rule.
  - split; [reflexivity|]. split; [intros [|] ? ? E; discriminate|apply auth_stall_nil].
  - intros p A coin e HJ HG R.
    assert (HG' : sidle_G (A ++ [sev e])).
    { destruct HG as [G1 G2]. split; [apply polite_snoc; [exact G1|exact I]|eapply auth_stall_next; eauto]. }
    split; [exact HG'|]. destruct p as [|cur].
    + cbn in HJ. subst A. rewrite (first_event g o gr e R).
      cbn. split; [eexists; reflexivity|]. split; [reflexivity|exact I].
    + destruct HJ as (H1 & H2 & H3).
      pose proof (greets_snoc gr A (sev e) H1) as Hgr.
      pose proof (r_report_mode K g o gr _ R A e eq_refl) as Hm.
      assert (N : (forall t, e <> SeIdleCommandReceived t) -> e <> SeIdleDoneReceived ->
        (forall ca, e <> SeCommandAuthenticateReceived ca) ->
        sidle_J gr (SipMain cur) (A ++ [sev e])).
      { intros E1 E2 E3. split; [exact Hgr|]. rewrite s_statuses_app, dones_app, map_app, H2.
        split; [destruct e; try (now contradiction E2); now rewrite ?app_nil_r|].
        rewrite smode_app, open_tag_app, fold_left_app.
        destruct e; try exact H3; [now contradiction (E3 ca)|now contradiction (E1 t)|now contradiction E2]. }
      destruct HG' as [G1 G2].
      destruct e as [g0|h r|c|ca|d|t|]; cbn [pr_event server_idle_rs server_idle_event];
        try (apply N; congruence).
      * (* AUTHENTICATE *)
        cbn. split; [exact Hgr|]. rewrite s_statuses_app, dones_app, map_app, H2.
        split; [reflexivity|]. now rewrite smode_app.
      * (* IDLE *)
        cbn. split; [exact Hgr|]. rewrite s_statuses_app, dones_app, map_app, H2.
        split; [reflexivity|]. rewrite smode_app, open_tag_app, fold_left_app. cbn. eauto.
      * (* DONE *)
        rewrite Hm in H3. destruct H3 as (t & -> & Ht & Hl).
        cbn. intros r Hr R1. destruct r; try contradiction. cbn in Hr. subst r. split; [split|].
        -- apply polite_snoc; [exact G1|]. cbn. rewrite completed_app, Ht. apply in_or_app. right. now left.
        -- apply auth_stall_snoc; [exact G2|]. rewrite smode_app. discriminate.
        -- split; [apply greets_snoc; exact Hgr|].
           rewrite !s_statuses_app, !dones_app, !map_app, H2, Hl. cbn. rewrite !app_nil_r.
           split; [reflexivity|]. now rewrite !smode_app.
  - intros p A r Hr HJ HG R. destruct (server_app_ret r Hr) as [E|(e & E)]; rewrite E in *.
    + now rewrite app_nil_r.
    + destruct HG as [G1 G2]. split; [apply polite_snoc; [exact G1|exact I]|eapply auth_stall_next; eauto].
  - intros p A y b HJ HG R E. destruct p as [|cur]; [discriminate|].
    cbn [pr_line server_idle_rs server_idle_line] in E. injection E as <-.
    destruct HJ as (H1 & H2 & H3). destruct HG as [G1 G2].
    destruct (bytes_eqb y (lit "ok")); [|destruct (bytes_eqb y (lit "no")); [|destruct (bytes_eqb y (lit "expunge"))]].
    + (* ok *)
      cbn. intros r Hr R1. destruct r; try contradiction. cbn in Hr. subst q.
      pose proof (r_idle_accept K g o gr _ R1 _ _ _ eq_refl) as Hc. split; [split|].
      * apply polite_snoc; [exact G1|exact I].
      * apply auth_stall_snoc; [exact G2|]. intro M. rewrite M in Hc. destruct r; [discriminate|].
        split; [discriminate|reflexivity].
      * split; [now apply greets_snoc|]. rewrite s_statuses_app, dones_app, map_app, H2.
        split; [reflexivity|]. rewrite smode_app, open_tag_app, fold_left_app. cbn.
        destruct r; [|exact H3]. destruct (smode A); try discriminate. exact H3.
    + (* no *)
      destruct cur as [t|]; [|cbn; auto].
      cbn. intros r Hr R1. destruct r; try contradiction. cbn in Hr. subst t0.
      pose proof (r_idle_reject K g o gr _ R1 _ _ _ eq_refl) as Hc. split; [split|].
      * apply polite_snoc; [exact G1|]. destruct r; [|exact I]. cbn.
        destruct (smode A); try discriminate. destruct H3 as (t' & [= <-] & Ht & _).
        exists t. eexists. split; [reflexivity|exact Ht].
      * apply auth_stall_snoc; [exact G2|]. intro M. rewrite M in Hc. destruct r; [discriminate|].
        split; [discriminate|reflexivity].
      * split; [now apply greets_snoc|]. rewrite s_statuses_app, dones_app, map_app, H2.
        split; [reflexivity|]. rewrite smode_app, open_tag_app, fold_left_app. cbn.
        destruct r; [exact I|exact H3].
    + (* expunge *)
      cbn. intros r Hr R1. destruct r; try contradiction. cbn in Hr. subst r. split; [split|].
      * apply polite_snoc; [exact G1|exact I].
      * apply auth_stall_snoc; [exact G2|]. intros _. split; [discriminate|reflexivity].
      * split; [now apply greets_snoc|]. rewrite s_statuses_app, dones_app, map_app, H2.
        split; [reflexivity|]. rewrite smode_app, open_tag_app, fold_left_app. exact H3.
    + cbn. auto.
Qed.
End ServerIdleRs.
End Servers.
