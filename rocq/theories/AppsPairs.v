(** Example clients connected to example servers: when nothing moves any more. *)
From Coq Require Import List NArith Bool PeanoNat Lia.
From Coq Require String.
Import (notations) String.
From Verif Require Import Base Types Codec Handle Receive ClientSend Client ServerSend Server
  SpecFraming SpecClient SpecServer ClientInv ClientThms ServerInv ServerThms System SpecSystem SpecSystemLive
  SystemLog Stream StreamMachine SpecStream StreamProofs StreamState Net SpecNet NetProofs NetSystem NetApp NetRest NetThms
  NetLive NetStall SpecViews NetViews Apps SpecApps AppsProofs AppsClient AppsServer AppsSays AppsNet.
Import ListNotations.
Local Open Scope list_scope.

(** ** A program waits while its future is pending *)
Section Waits.
Context (T : tls) (M : machine) (fuel : nat).

Definition ends_inside (l : list (xlog M)) : Prop := exists l1 e, l = l1 ++ [e] /\ inside e = true.
Lemma ends_app : forall l l', ends_inside l' -> ends_inside (l ++ l').
Proof. intros l l' (l1 & e & -> & H). exists (l ++ l1), e. now rewrite app_assoc. Qed.
Lemma ends_cons : forall h l', ends_inside l' -> ends_inside (h :: l').
Proof. intros h l'. exact (ends_app [h] l'). Qed.

Lemma sync_ends : forall (s : stream T) (m : m_st M) x' l', sync T M fuel s m = (x', l') ->
  reading (x_f x') = true -> ends_inside l'.
Proof.
  intros s m x' l' E Fr. unfold sync in E.
  destruct (sync_input T M fuel s m) as [[[s1 m1] l1] r1].
  assert (Fl : forall s2 m2 l2 r, fail T M s2 m2 l2 r = (x', l') -> False).
  { intros s2 m2 l2 r F. apply fail_log in F as (_ & _ & _ & _ & _ & [F|F]); rewrite F in Fr; discriminate. }
  destruct m1 as [m1|]; [|injection E as <- <-; discriminate].
  destruct r1 as [r1|]; [now apply Fl in E|].
  destruct (m_next M m1) as [[m2 r]|]; [|injection E as <- <-; discriminate].
  destruct r as [e| |b|e]; try (injection E as <- <-; discriminate).
  - destruct (sync_output T fuel s1 []) as [s2 [e|]]; [now apply Fl in E|].
    injection E as <- <-. now exists l1, (XNext MNeedMore).
  - destruct (sync_output T fuel s1 b) as [s2 [e|]]; [now apply Fl in E|].
    injection E as <- <-. now exists l1, (XNext (MOutput b)).
Qed.

Lemma step_ends : forall (x : xstate T M) a x' l l',
  (reading (x_f x) = true -> ends_inside l) -> xstep T M fuel x a = (x', l') ->
  reading (x_f x') = true -> ends_inside (l ++ l').
Proof.
  intros x a x' l l' IH E Fr.
  assert (Same : (x, @nil (xlog M)) = (x', l') -> ends_inside (l ++ l')).
  { intro H. injection H as <- <-. rewrite app_nil_r. auto. }
  destruct a as [| |r|r|ok| |o]; cbn [xstep] in E.
  - destruct (x_f x); try (now apply Same).
    destruct (sync T M fuel _ _) as [y k] eqn:E1. injection E as <- <-.
    apply ends_app, ends_cons. eapply sync_ends; eauto.
  - destruct (x_f x); try (now apply Same).
    destruct (start_flush T M fuel _ _) as [y k] eqn:E1. injection E as <- <-. exfalso.
    unfold start_flush in E1. destruct (x_tls (x_s x)) as [t|].
    + destruct (t_flush T t) as [t1|]; [|injection E1 as <- <-; discriminate].
      destruct (sync_output T fuel _ []) as [s2 [e|]].
      * apply fail_log in E1 as (_ & _ & _ & _ & _ & [F|F]); rewrite F in Fr; discriminate.
      * injection E1 as <- <-. cbn in Fr. unfold flush_await in Fr. destruct (x_wbuf s2); discriminate.
    + injection E1 as <- <-. cbn in Fr. unfold flush_await in Fr. destruct (x_wbuf (x_s x)); discriminate.
  - destruct (reading (x_f x)) eqn:Rd; [|now apply Same].
    destruct r as [[|b r]|]; try (injection E as <- <-; discriminate).
    destruct (sync T M fuel _ _) as [y k] eqn:E1. injection E as <- <-.
    apply ends_app, ends_cons. eapply sync_ends; eauto.
  - destruct (writing (x_f x)) eqn:Wr; [|now apply Same].
    destruct r as [[|n]|]; try (injection E as <- <-; discriminate).
    destruct (Nat.leb (S n) (length (x_wbuf (x_s x)))); [|now apply Same].
    cbn [x_wbuf] in E. destruct (skipn (S n) (x_wbuf (x_s x))) as [|w wb].
    + destruct (x_f x) eqn:Fx; try (injection E as <- <-; discriminate).
      destruct (sync T M fuel _ _) as [y k] eqn:E1. injection E as <- <-.
      apply ends_app, ends_cons. eapply sync_ends; eauto.
    + injection E as <- <-. apply ends_app. eexists [], _. split; reflexivity.
  - destruct (x_f x); try (now apply Same). injection E as <- <-. discriminate.
  - destruct (pending (x_f x)); [|now apply Same]. injection E as <- <-. discriminate.
  - destruct (x_f x); try (now apply Same).
    destruct (m_call M (x_m x) o) as [[m1 r]|]; injection E as <- <-; discriminate.
Qed.

Lemma run_ends : forall s m acts x l, xrun T M fuel (XState s m FIdle) acts = (x, l) ->
  reading (x_f x) = true -> ends_inside l.
Proof.
  intros s m acts x l E.
  refine (xrun_ind T M fuel (fun x l => reading (x_f x) = true -> ends_inside l) (XState s m FIdle) _ _ acts x l E).
  - discriminate.
  - intros y k a y' k' IH S. exact (step_ends y a y' k k' IH S).
Qed.

Lemma ends_waits : forall (P : program M) l st, psteps P l st -> ends_inside l -> waits st.
Proof.
  intros P l st S (l1 & e & -> & He). inversion S as [E|l st0 e0 st' S0 S1 E].
  - symmetry in E. apply app_eq_nil in E as [_ E]. discriminate.
  - apply app_inj_tail in E as [-> ->].
    destruct S1 as [p e' _|p coin e'|p r Hr|p x b Hb|p x o k r Hb|o k r|p e' [-> | ->]|o k]; try discriminate.
    now exists p.
Qed.
End Waits.

(** What a server reports. *)
Lemma report_in : forall A r, In r (sreports A) <-> In (SlNext r) A /\ is_report r = true.
Proof.
  intros A r. unfold sreports. rewrite filter_In.
  enough (X : In r (sresults A) <-> In (SlNext r) A) by tauto.
  induction A as [|e A IH]; [reflexivity|]. destruct e; cbn; rewrite IH; split; intros H; try (now right);
    try (destruct H as [H|H]; [discriminate|exact H]);
    destruct H as [H|H]; [left; congruence|now right|left; congruence|now right].
Qed.
Lemma r_command : forall K g o gr A e, sreached K g o gr A -> In (sev e) A -> is_command e = true ->
  exists c, e = command_event c /\ In (IEvent (command_event c)) (sreports A).
Proof.
  intros K g o gr A e R Hin He.
  assert (Hr : is_report (IEvent e) = true) by (destruct e; try discriminate; reflexivity).
  enough (X : exists c, e = command_event c).
  { destruct X as (c & ->). exists c. split; [reflexivity|]. now apply report_in. }
  destruct R as (ops & s & ls & R & <-). apply filter_In in Hin as [Hin _].
  apply in_split in Hin as (l1 & l2 & E).
  destruct (s_reports _ _ _ _ _ _ _ R _ _ _ E Hr) as (_ & raw & v & _ & F).
  destruct v; cbn in F; try discriminate; injection F as ->; try discriminate. eauto.
Qed.
Lemma s_commands_reports : forall A, s_commands A =
  flat_map (fun r => match r with IEvent (SeCommandReceived c) => [c] | _ => [] end) (sreports A).
Proof.
  induction A as [|e A IH]; [reflexivity|]. unfold sreports in *.
  destruct e as [| | | | | | |[[]| | |[]| | |]|]; cbn in *; rewrite ?IH; reflexivity.
Qed.
Lemma only_enqueues_given : forall A, only_enqueues A -> flat_map accepted A = map snd (s_enqueued A).
Proof.
  intro A.
  assert (X : flat_map accepted A = flat_map accepted (s_calls A)).
  { induction A as [|e A IH]; [reflexivity|]. unfold s_calls in *. destruct e; cbn in *; rewrite ?IH; reflexivity. }
  rewrite X. unfold only_enqueues. intros ->. induction (s_enqueued A) as [|[h r] k IH]; [reflexivity|].
  cbn. now rewrite IH.
Qed.
Lemma reported_in : forall es r, In r (reported_all es) <-> exists e, In e es /\ reported e = Some r.
Proof.
  induction es as [|e es IH]; intro r; cbn; [split; [intros []|intros (e & [] & _)]|].
  destruct (reported e) as [r0|] eqn:E; cbn; rewrite IH.
  - split.
    + intros [<-|(e' & H1 & H2)]; eauto.
    + intros (e' & [<-|H1] & H2); [left; congruence|right; eauto].
  - split; [intros (e' & H1 & H2); eauto|]. intros (e' & [<-|H1] & H2); [congruence|eauto].
Qed.
Lemma interleaved_left : forall {A} (xs ys : list A), interleaved xs [] ys -> ys = xs.
Proof.
  intros A xs ys H. remember [] as rs eqn:E. induction H; [reflexivity| |discriminate].
  now rewrite IHinterleaved.
Qed.

Section Rest.
Context (K : Codecs) (relaxed : bool) (o : soptions) (gc gs : hgen) (gr : greeting) (T1 T2 : tls).
Notation CM := (client_machine K).
Notation SM := (server_machine K).
Notation talk := (@talk K relaxed o gc gs gr T1 T2).

Lemma talk_waits : forall (PC : program CM) (PS : program SM) z L stc sts, talk z L ->
  psteps PC (lefts L) stc -> psteps PS (rights L) sts ->
  (x_f (n_l z) = FRead -> waits stc) /\ (x_f (n_r z) = FRead -> waits sts).
Proof.
  intros PC PS z L stc sts Tk S1 S2.
  assert (X : (exists f s m a, xrun T1 CM f (XState s m FIdle) a = (n_l z, lefts L)) /\
    (exists f s m a, xrun T2 SM f (XState s m FIdle) a = (n_r z, rights L))).
  { destruct Tk as [fuel acts E|fuel acts t1 t2 peer1 R1 dec1 peer2 R2 dec2 Lk1 Lk2 E N1 N2 D1 D2];
      destruct (net_projects _ _ _ _ _ _ _ _ _ _ _ _ E) as [(a1 & H1) (a2 & H2)]; split; eauto 6. }
  destruct X as [(f1 & s1 & m1 & a1 & X1) (f2 & s2 & m2 & a2 & X2)].
  split; intro F; (eapply ends_waits; [eassumption|eapply run_ends; [eassumption|now rewrite F]]).
Qed.

(** Only IDLE is accepted. *)
Lemma only_idle_accepted : forall h c bs xs n h1 q, conversing K h c bs xs n -> In (XAccepted h1 q) xs ->
  negb (match cbody c with BIdle => true | _ => false end) = true -> False.
Proof.
  intros h c bs xs n h1 q Cv X Hc. destruct Cv as [ | | | |ca line xs ds lines tl _ _ Hr _ Htl|line xs Hi|line q0 dn Hi];
    try contradiction; try (rewrite Hi in Hc; discriminate).
  destruct X as [X|X]; [discriminate|]. apply in_app_or in X as [X|X].
  - clear -Hr X. induction Hr as [|xs ds q0 d Hr IH]; [destruct X|].
    apply in_app_or in X as [X|[X|[X|[]]]]; [auto|discriminate..].
  - destruct Htl as [->|[(q2 & ->)|(q2 & d2 & x3 & -> & _)]]; cbn in X; intuition discriminate.
Qed.

(** Requests and answers, by the calls. *)
Lemma answers_calls : forall A, SpecSystem.answers (exchange A) =
  flat_map (fun e => match e with ClSetAuth d (inl _) => [RqData d] | ClSetDone (Some _) => [RqDone] | _ => [] end)
    (c_calls A).
Proof.
  induction A as [|e A IH]; [reflexivity|]. unfold c_calls in *.
  destruct e as [| |d [|]|[|]| |[]|]; try match goal with e : cevent |- _ => destruct e end;
    cbn in *; rewrite ?IH; reflexivity.
Qed.
Lemma asked_reports : forall S, filter asks_answer (sevents S) =
  flat_map (fun r => match r with IEvent e => if asks_answer e then [e] else [] | _ => [] end) (sreports S).
Proof.
  induction S as [|e S IH]; [reflexivity|]. unfold sreports in *.
  destruct e as [| | | | | | |[]|]; try match goal with e : sevent |- _ => destruct e end;
    cbn in *; rewrite ?IH; reflexivity.
Qed.
Lemma calls_given : forall S, flat_map accepted S = flat_map accepted (s_calls S).
Proof.
  induction S as [|e A IH]; [reflexivity|]. unfold s_calls in *. destruct e; cbn in *; rewrite ?IH; reflexivity.
Qed.
Lemma answered_length : forall es cs, Forall2 answers_event es cs -> length (flat_map accepted cs) = length es.
Proof.
  intros es cs F. induction F as [|e c es cs H F IH]; [reflexivity|]. cbn. rewrite app_length, IH.
  destruct e; try contradiction; destruct c as [r h| |q [h|]|t [h|]| | | | |]; try contradiction; try reflexivity;
    destruct t; try contradiction; reflexivity.
Qed.
Lemma events_split : forall A e, In e (events A) -> exists A1 A2, A = A1 ++ ClNext (IEvent e) :: A2.
Proof.
  intros A e H. enough (X : In (ClNext (IEvent e)) A) by (now apply in_split in X).
  induction A as [|x A IH]; [destruct H|].
  destruct x as [| | | | |[]|]; cbn in H; try (right; apply IH; exact H).
  destruct H as [->|H]; [now left|right; auto].
Qed.
Lemma no_asks : forall relaxed g A, creached K relaxed g A -> enqueued A = [] -> terminals A = [] -> asks A = 0.
Proof.
  intros rel g A R E Te. pose proof (r_current K rel g A R) as X. unfold current in X. rewrite Te, E in X. cbn in X.
  unfold cur_seg in X. rewrite Te in X. cbn in X. rewrite (no_end_segment A (no_terminals A Te)) in X.
  revert X. clear. induction A as [|x A IH]; [reflexivity|]. intro X.
  destruct x as [| |d [|]|[|]| |[]|]; try match goal with e : cevent |- _ => destruct e end;
    cbn in X; try discriminate; try (apply IH; exact X).
Qed.

Fixpoint acceptances (S : list slog) : list response :=
  match S with
  | [] => []
  | SlIdleAccept q (inl _) :: S' => RCcr q :: acceptances S'
  | SlIdleReject t (inl _) :: S' => RStatus t :: acceptances S'
  | _ :: S' => acceptances S'
  end.
Lemma acceptances_nil : forall S, acceptances S = [] -> unanswered S.
Proof.
  intros S H e He. induction S as [|x S IH]; [destruct He|].
  destruct x as [| | | |q [|]|t [|]| | |]; cbn in H; try discriminate;
    (destruct He as [<-|He]; [exact I|exact (IH H He)]).
Qed.
Lemma acceptances_given : forall S r, In r (acceptances S) -> In r (flat_map accepted S).
Proof.
  induction S as [|x S IH]; intros r H; [destruct H|]. cbn. apply in_or_app.
  destruct x as [| | | |q [|]|t [|]| | |]; cbn in H; try (right; apply IH; exact H);
    (destruct H as [<-|H]; [left; now left|right; auto]).
Qed.
Lemma acceptances_not_data : forall S d, In (RData d) (acceptances S) -> False.
Proof.
  induction S as [|x S IH]; intros d H; [destruct H|].
  destruct x as [| | | |q [|]|t [|]| | |]; cbn in H; try exact (IH _ H);
    (destruct H as [H|H]; [discriminate|exact (IH _ H)]).
Qed.
Fixpoint dones_reported (t : option tag) (rs : list s_ires) : list tag :=
  match rs with
  | [] => []
  | IEvent (SeIdleCommandReceived t') :: rs' => dones_reported (Some t') rs'
  | IEvent SeIdleDoneReceived :: rs' => opt_list t ++ dones_reported t rs'
  | _ :: rs' => dones_reported t rs'
  end.
Lemma dones_reports : forall S t, dones t S = dones_reported t (sreports S).
Proof.
  induction S as [|e S IH]; intro t; [reflexivity|]. unfold sreports in *.
  destruct e as [| | | | | | |[]|]; try match goal with e : sevent |- _ => destruct e end;
    cbn in *; rewrite ?IH; reflexivity.
Qed.
Lemma statuses_given : forall S s, In s (s_statuses S) -> In (RStatus s) (flat_map accepted S).
Proof.
  induction S as [|e S IH]; intros s H; [destruct H|]. cbn. apply in_or_app.
  destruct e as [[]| | | | | | | |]; cbn in H; try (right; apply IH; exact H).
  destruct H as [->|H]; [left; now left|right; auto].
Qed.
Lemma one_request : forall A h c, enqueued A = [(h, c)] -> length (terminals A) <= 1 ->
  requests A = RqCommand c :: SpecSystem.answers (exchange (segment 0 A)).
Proof.
  intros A h c En Le. unfold requests.
  destruct (terminals A) as [|e [|e' es]] eqn:Te; cbn in Le; try lia; cbn; unfold segment_requests; rewrite En; cbn;
    now rewrite app_nil_r.
Qed.
Lemma few_terminals : forall relaxed g A h c, creached K relaxed g A -> enqueued A = [(h, c)] ->
  length (terminals A) <= 1.
Proof.
  intros rel g A h c R En. destruct (terminals A) as [|e [|e' es]] eqn:Te; cbn; try lia.
  destruct (r_resolved K rel g A R 1 e') as (h1 & c1 & E1 & _); [now rewrite Te|]. rewrite En in E1. discriminate.
Qed.

(** Before the end of the only command, no status with its tag is reported as such. *)
Lemma status_concluded : forall A B1 B2 t b, all_expected A ->
  A = B1 ++ ClNext (IEvent (CeStatusReceived (StTagged t b))) :: B2 -> terminals B1 <> [].
Proof.
  intros A B1 B2 t b Vw E. destruct (Vw _ _ _ E) as [_ (k & h & c & e & _ & _ & Hk & _)].
  intro X. rewrite X in Hk. destruct k; discriminate.
Qed.
Lemma idled_parts : forall relaxed g h e A3 A, creached K relaxed g A -> idled h e A3 A ->
  exists A0, A = A0 ++ ClNext (IEvent e) :: A3 /\ enqueued A = [(h, idle_command)] /\ terminals A0 = [] /\
    terminals A = [e].
Proof.
  intros rel g h e A3 A R (A2 & B & D & O & T & C).
  assert (En : enqueued A = [(h, idle_command)]).
  { eapply begins_enqueued; [exact B|]. rewrite enqueued_app, (only_done_enqueued _ D). cbn.
    now apply no_calls_enqueued. }
  pose proof (few_terminals rel g A h _ R En) as F.
  destruct B as (A1 & y & E & _).
  exists (A1 ++ ClNext (IEvent (CeGreetingReceived y)) :: ClEnqueue a1_idle h :: A2).
  rewrite <- app_assoc. split; [exact E|]. split; [exact En|].
  assert (He : is_terminal e = true) by (destruct O as [->|(s & -> & _)]; reflexivity).
  assert (X0 : terminals (A1 ++ ClNext (IEvent (CeGreetingReceived y)) :: ClEnqueue a1_idle h :: A2) = terminals A1).
  { change (ClNext (IEvent (CeGreetingReceived y)) :: ClEnqueue a1_idle h :: A2)
      with ([ClNext (IEvent (CeGreetingReceived y)); ClEnqueue a1_idle h] ++ A2).
    rewrite !terminals_app, T. apply app_nil_r. }
  assert (X : terminals A = terminals A1 ++ e :: terminals A3).
  { rewrite E. change (ClNext (IEvent (CeGreetingReceived y)) :: ClEnqueue a1_idle h :: A2 ++ ClNext (IEvent e) :: A3)
      with ((ClNext (IEvent (CeGreetingReceived y)) :: ClEnqueue a1_idle h :: A2) ++ [ClNext (IEvent e)] ++ A3).
    rewrite app_assoc, terminals_app, X0, terminals_app. f_equal. cbn. now rewrite He. }
  rewrite X0, X in *. rewrite app_length in F. cbn in F.
  destruct (terminals A1); [|cbn in F; lia]. destruct (terminals A3); [now split|cbn in F; lia].
Qed.

(** The client returns only if the server allowed it to stop. *)
Lemma idle_returned : forall relaxed g h e A3 A, creached K relaxed g A -> all_expected A -> idled h e A3 A ->
  (exists y, In y A3 /\ status_with idle_tag y) -> e = CeIdleDoneSent h.
Proof.
  intros rel g h e A3 A R Vw I (y & Hy & b & ->).
  destruct (idled_parts rel g h e A3 A R I) as (A0 & E & En & T0 & Te).
  apply in_split in Hy as (B1 & B2 & ->).
  assert (E' : A = (A0 ++ ClNext (IEvent e) :: B1) ++ ClNext (IEvent (CeStatusReceived (StTagged idle_tag b))) :: B2)
    by (rewrite <- app_assoc; exact E).
  destruct (Vw _ _ _ E') as [_ (k & h0 & c0 & e0 & Hk & _ & Ht & Hc)].
  assert (X0 : k = 0).
  { assert (Hlt : k < length (enqueued (A0 ++ ClNext (IEvent e) :: B1))) by (apply nth_error_Some; congruence).
    rewrite E', enqueued_app in En. apply (f_equal (@length _)) in En.
    rewrite app_length in En. cbn in En. lia. }
  subst k.
  assert (He : is_terminal e = true) by (destruct I as (A2 & _ & _ & [->|(s & -> & _)] & _); reflexivity).
  rewrite terminals_app, T0 in Ht. cbn in Ht. rewrite He in Ht. cbn in Ht. injection Ht as <-.
  destruct I as (A2 & _ & _ & [->|(s & -> & _)] & _); [reflexivity|].
  destruct Hc as [Hc|[(s0 & Hc)|Hc]]; discriminate.
Qed.

(** At rest, everything has arrived. *)
Section Arrived.
Context (z : net T1 T2 CM SM) (L : list (nlog CM SM)) (cmd : command).
Notation A := (clogs (app_log L)).
Notation S := (slogs (app_log L)).
Hypothesis Talk : talk z L.
Hypothesis Ord : orderly K relaxed o gr (app_log L).
Hypothesis Own : own_roundtrips K relaxed o (app_log L).
Hypothesis Rest : at_rest z.
Hypothesis Only : enqueued A = [] \/ exists h, enqueued A = [(h, cmd)].
Hypothesis Fit : lits_fit o (enc_command K cmd).

Lemma fit_all : forall h c, In (h, c) (enqueued A) -> lits_fit o (enc_command K c).
Proof.
  intros h c Hin. destruct Only as [E|(h0 & E)]; rewrite E in Hin; [destruct Hin|].
  destruct Hin as [Hin|[]]. now injection Hin as _ <-.
Qed.
Lemma arrived_requests : sreports S = map (fun q => IEvent (request_event q)) (requests A).
Proof. eapply rest_delivered; eauto. exact fit_all. Qed.
Lemma no_rejections : flat_map (rejection K o) (requests A) = [].
Proof.
  unfold requests. generalize (seq 0 (Datatypes.S (length (terminals A)))). intro ks.
  induction ks as [|k ks IH]; [reflexivity|]. cbn. rewrite flat_map_app, IH, app_nil_r.
  unfold segment_requests. destruct (nth_error (enqueued A) k) as [[h c]|] eqn:E; [|reflexivity].
  cbn. pose proof (fit_all h c (nth_error_In _ _ E)) as F.
  assert (X : forallb (lit_fitsb o) (enc_command K c) = true).
  { apply forallb_forall. intros f Hf. eapply Forall_forall in F; [|exact Hf]. destruct f; cbn in *; [reflexivity|].
    now apply N.leb_le. }
  rewrite X. cbn. generalize (exchange (segment k A)). clear.
  induction l as [|x xs IH]; [reflexivity|]. destruct x; cbn; auto.
Qed.
Lemma arrived_responses : reported_all (events A) = given (rights L).
Proof.
  destruct (rest_exchange K relaxed o gc gs gr T1 T2 z L Talk Ord Own Rest) as (took & _ & _ & I).
  rewrite no_rejections in I. apply interleaved_left in I. rewrite I.
  eapply rest_told; eauto. exact no_rejections.
Qed.
Lemma arrived_sent : told_sent S = given (rights L).
Proof. eapply rest_told; eauto. exact no_rejections. Qed.
Lemma arrived_greeting : greetings (events A) = [gr].
Proof. eapply rest_greeted; eauto. Qed.
Lemma arrived_greeted : greeted A.
Proof.
  pose proof arrived_greeting as H. unfold greeted.
  assert (X : In gr (greetings (events A))) by (rewrite H; now left).
  exists gr. revert X. clear. generalize (events A). intro es. induction es as [|e es IH]; [intros []|].
  destruct e; cbn; intro X; try (right; exact (IH X)). destruct X as [->|X]; auto.
Qed.
End Arrived.

(** ** client.rs and server.rs *)
Section Login.
Context (login : bytes).
Notation PC := (client_rs K login).
Notation PS := (server_rs K).
Notation cmd := (client_command login).
Context (Ag : agreed K relaxed o gr cmd [no_to cmd] []).

Lemma login_fine : forall z L, talk z L -> pair K PC PS L -> client_fine cmd [] (clogs (app_log L)).
Proof.
  intros z L Tk [(stc & S1) _]. destruct (talk_client _ _ _ _ _ _ _ _ _ _ Tk) as (f & s & acts & x & R).
  destruct (client_rs_inv K login _ _ _ _ _ _ _ _ _ _ R S1) as [_ G].
  rewrite clogs_app_log. destruct G as [E|(h & A2 & B & E)].
  - split; [left; now apply no_calls_enqueued|].
    split; [intros d h Hin|intros h Hin]; exfalso;
      eapply (in_nil (A := clog)); rewrite <- E; apply filter_In; split; [exact Hin|reflexivity|exact Hin|reflexivity].
  - split; [right; exists h; eapply begins_enqueued; [exact B|now apply no_calls_enqueued]|].
    destruct B as (A1 & y & -> & E1 & _).
    assert (X : forall e, In e (A1 ++ ClNext (IEvent (CeGreetingReceived y)) :: ClEnqueue cmd h :: A2) ->
      c_call e = true -> e = ClEnqueue cmd h).
    { intros e Hin He.
      assert (Hc : In e (c_calls (A1 ++ ClNext (IEvent (CeGreetingReceived y)) :: ClEnqueue cmd h :: A2))).
      { apply filter_In. now split. }
      rewrite c_calls_app in Hc. rewrite E1 in Hc. cbn in Hc. unfold c_calls in E. rewrite E in Hc.
      destruct Hc as [Hc|[]]. now symmetry. }
    split; [intros d h0 Hin|intros h0 Hin]; apply X in Hin; try reflexivity; discriminate.
Qed.

Lemma login_nice : forall z L, talk z L -> pair K PC PS L -> polite (slogs (app_log L)).
Proof.
  intros z L Tk [_ (sts & S2)]. destruct (talk_server _ _ _ _ _ _ _ _ _ _ Tk) as (f & s & acts & x & R).
  destruct (server_rs_inv K _ _ _ _ _ _ _ _ _ _ _ R S2) as [_ G]. rewrite slogs_app_log. apply G.
Qed.

Lemma login_says : forall z L p r, talk z (L ++ [NR (@XCall SM p r)]) -> pair K PC PS (L ++ [NR (@XCall SM p r)]) ->
  (forall c, In (IEvent (command_event c)) (sreports (slogs (app_log L))) -> c = cmd) ->
  forall x, In x (accepted r) -> In x [no_to cmd].
Proof.
  intros z L p r Tk [_ (sts & S2)] Hc x Hx.
  destruct (talk_server _ _ _ _ _ _ _ _ _ _ Tk) as (f & s & acts & y & R).
  destruct (s_stream_reached _ _ _ _ _ _ _ _ _ _ _ R) as [Rd Ty].
  pose proof (server_rs_says K _ _ S2 Ty) as J. rewrite rights_app in J, Rd. rewrite flat_map_app in J, Rd.
  cbn in J, Rd.
  assert (Hr : s_call r = true) by (destruct r; try contradiction; reflexivity).
  destruct (J (flat_map server_app (rights L)) r [] eq_refl Hr) as (A0 & c & h & E & ->).
  cbn in Hx. destruct Hx as [<-|[]]. left.
  apply sreached_cut in Rd. rewrite slogs_app_log in Hc.
  destruct (r_command K _ _ _ _ (SeCommandReceived c) Rd) as (c' & E' & Hin); [rewrite E; apply in_or_app; right; now left|reflexivity|].
  specialize (Hc c' Hin). subst c'. unfold command_event in E'. cbn in E'. now injection E' as ->.
Qed.

Lemma login_rest : forall z L stc sts, talk z L -> psteps PC (lefts L) stc -> psteps PS (rights L) sts ->
  lits_fit o (enc_command K cmd) -> at_rest z ->
  greetings (events (clogs (app_log L))) = [gr] /\
  (exists h, enqueued (clogs (app_log L)) = [(h, cmd)] /\
     terminals (clogs (app_log L)) = [CeCommandSent h cmd]) /\
  reported_all (events (clogs (app_log L))) = [no_to cmd] /\
  sreports (slogs (app_log L)) = [IEvent (SeCommandReceived cmd)] /\
  told_sent (slogs (app_log L)) = [no_to cmd].
Proof.
  intros z L stc sts Tk S1 S2 Fit Rest.
  assert (Pr : pair K PC PS L) by (split; eauto).
  destruct (pair_orderly K relaxed o gc gs gr T1 T2 PC PS cmd [no_to cmd] [] Ag login_fine login_nice login_says z L Tk Pr) as [Ord Own].
  destruct (login_fine z L Tk Pr) as (Only & _).
  pose proof (arrived_requests z L cmd Tk Ord Own Rest Only Fit) as Rq.
  pose proof (arrived_responses z L cmd Tk Ord Own Rest Only Fit) as Rs.
  pose proof (arrived_sent z L cmd Tk Ord Own Rest Only Fit) as St.
  pose proof (arrived_greeted z L Tk Ord Own Rest) as Gr.
  pose proof (rest_oldest K relaxed o gc gs gr T1 T2 z L Tk Ord Own Rest) as Old.
  destruct (talk_waits PC PS z L stc sts Tk S1 S2) as [W1 W2].
  destruct (W1 (proj1 (proj2 (proj2 Rest)))) as (pc & ->). destruct (W2 (proj2 (proj2 (proj2 Rest)))) as (ps & ->).
  destruct (talk_client _ _ _ _ _ _ _ _ _ _ Tk) as (f & s & acts & x & R1).
  destruct (client_rs_inv K login _ _ _ _ _ _ _ _ _ _ R1 S1) as [J1 _].
  destruct (c_stream_reached _ _ _ _ _ _ _ _ _ _ R1) as [Rc _].
  destruct (talk_server _ _ _ _ _ _ _ _ _ _ Tk) as (f2 & s2 & acts2 & x2 & R2).
  destruct (server_rs_inv K _ _ _ _ _ _ _ _ _ _ _ R2 S2) as [J2 G2].
  rewrite <- clogs_app_log in J1, Rc. rewrite <- slogs_app_log in J2, G2.
  split; [eapply arrived_greeting; eauto|].
  destruct pc as [|h]; [exfalso; exact (proj2 (J1 : awaiting _) Gr)|].
  destruct J1 as (A2 & B & C).
  assert (En : enqueued (clogs (app_log L)) = [(h, cmd)]) by (eapply begins_enqueued; [exact B|now apply no_calls_enqueued]).
  assert (Te : exists t, terminals (clogs (app_log L)) = [t] /\
    exists bs n, conversation K h cmd bs (exchange (segment 0 (clogs (app_log L)))) n t).
  { destruct (terminals (clogs (app_log L))) as [|t [|t' ts]] eqn:E.
    - exfalso. apply (Old h cmd); [unfold oldest; rewrite E, En; reflexivity|now exists login].
    - exists t. split; [reflexivity|].
      destruct (r_done K _ _ _ Rc 0 t) as (h0 & c0 & E0 & X); [now rewrite E|].
      rewrite En in E0. injection E0 as <- <-. exact X.
    - exfalso. destruct (r_resolved K _ _ _ Rc 1 t') as (h0 & c0 & E0 & _); [now rewrite E|].
      rewrite En in E0. discriminate. }
  destruct Te as (t & Te & bs & n & Cv).
  assert (Ex : exchange (segment 0 (clogs (app_log L))) = []) by (inversion Cv; try discriminate; reflexivity).
  assert (Req : requests (clogs (app_log L)) = [RqCommand cmd]).
  { unfold requests. rewrite Te. cbn. unfold segment_requests. rewrite En. cbn. now rewrite Ex. }
  rewrite Req in Rq. cbn in Rq.
  assert (Gv : given (rights L) = [no_to cmd]).
  { destruct G2 as (_ & _ & _ & Oe).
    rewrite <- given_app_log, <- slogs_app_log, (only_enqueues_given _ Oe).
    destruct ps as [|hs]; [cbn in J2; rewrite J2 in Rq; discriminate|].
    destruct J2 as (_ & -> & _). rewrite s_commands_reports, Rq. reflexivity. }
  rewrite Gv in Rs, St. split; [|repeat split; assumption].
  exists h. split; [exact En|]. rewrite Te. f_equal.
  destruct Cv as [_|pre d post v _ _ Hb|ca line xs ds lines tl v Hc| line tl v Hc|line q dn Hc]; [reflexivity| |discriminate..].
  exfalso.
  assert (X : In (RStatus v) (reported_all (events (clogs (app_log L))))).
  { apply reported_in. exists (CeCommandRejected h cmd v). split; [|reflexivity].
    eapply (proj1 (filter_In is_terminal _ _)). fold (terminals (clogs (app_log L))). rewrite Te. now left. }
  rewrite Rs in X. destruct X as [X|[]]. injection X as <-. destruct Hb as (b & Eb & Kb).
  injection Eb as <-. discriminate.
Qed.
End Login.
(** ** client_authenticate.rs and server_authenticate.rs *)
Section Auth.
Context (t : tag).
Notation PC := (client_authenticate_rs K t).
Notation PS := (server_authenticate_rs K).
Notation cmd := (authenticate_command t).
Context (Ag : agreed K relaxed o gr cmd (authenticate_texts t) authenticate_answers).

Lemma answers_in : forall n d, In d (answers authenticate_data n) -> In d authenticate_answers.
Proof.
  intros n d H. unfold answers in H.
  assert (X : In d (authenticate_data ++ repeat ADCancel n)).
  { rewrite <- (firstn_skipn n). apply in_or_app. now left. }
  apply in_app_or in X as [[<-|[<-|[]]]|X]; [now left|right; now left|].
  apply repeat_spec in X. subst d. right. right. now left.
Qed.

Lemma auth_fine : forall z L, talk z L -> pair K PC PS L -> client_fine cmd authenticate_answers (clogs (app_log L)).
Proof.
  intros z L Tk [(stc & S1) _]. destruct (talk_client _ _ _ _ _ _ _ _ _ _ Tk) as (f & s & acts & x & R).
  destruct (client_authenticate_rs_inv K t _ _ _ _ _ _ _ _ _ _ R S1) as [_ G].
  rewrite clogs_app_log. destruct G as [E|(h & A2 & n & B & E & _)].
  - split; [left; now apply no_calls_enqueued|].
    split; [intros d h Hin|intros h Hin]; exfalso;
      eapply (in_nil (A := clog)); rewrite <- E; apply filter_In; split; [exact Hin|reflexivity|exact Hin|reflexivity].
  - split; [right; exists h; eapply begins_enqueued; [exact B|eapply given_not_enqueued; exact E]|].
    destruct B as (A1 & y & -> & E1 & _).
    assert (X : forall e, In e (A1 ++ ClNext (IEvent (CeGreetingReceived y)) :: ClEnqueue cmd h :: A2) ->
      c_call e = true -> e = ClEnqueue cmd h \/ In e (given_data h n)).
    { intros e Hin He.
      assert (Hc : In e (c_calls (A1 ++ ClNext (IEvent (CeGreetingReceived y)) :: ClEnqueue cmd h :: A2))).
      { apply filter_In. now split. }
      rewrite c_calls_app in Hc. rewrite E1 in Hc. cbn in Hc. unfold c_calls in E. rewrite E in Hc.
      destruct Hc as [Hc|Hc]; auto. }
    split; [intros d h0 Hin|intros h0 Hin]; apply X in Hin as [Hin|Hin]; try reflexivity; try discriminate;
      apply in_map_iff in Hin as (d0 & Ed & Hin); [|discriminate].
    injection Ed as -> _. eapply answers_in; exact Hin.
Qed.

Lemma auth_nice : forall z L, talk z L -> pair K PC PS L -> polite (slogs (app_log L)).
Proof.
  intros z L Tk [_ (sts & S2)]. destruct (talk_server _ _ _ _ _ _ _ _ _ _ Tk) as (f & s & acts & x & R).
  destruct (server_authenticate_rs_inv K _ _ _ _ _ _ _ _ _ _ _ R S2) as [_ G]. rewrite slogs_app_log. apply G.
Qed.

Lemma auth_says : forall z L p r, talk z (L ++ [NR (@XCall SM p r)]) -> pair K PC PS (L ++ [NR (@XCall SM p r)]) ->
  (forall c, In (IEvent (command_event c)) (sreports (slogs (app_log L))) -> c = cmd) ->
  forall x, In x (accepted r) -> In x (authenticate_texts t).
Proof.
  intros z L p r Tk [_ (sts & S2)] Hc x Hx.
  destruct (talk_server _ _ _ _ _ _ _ _ _ _ Tk) as (f & s & acts & y & R).
  destruct (s_stream_reached _ _ _ _ _ _ _ _ _ _ _ R) as [Rd Ty].
  pose proof (server_authenticate_rs_says K _ _ S2 Ty) as J. rewrite rights_app in J, Rd. rewrite flat_map_app in J, Rd.
  cbn in J, Rd.
  assert (Hr : s_call r = true) by (destruct r; try contradiction; reflexivity).
  destruct (J (flat_map server_app (rights L)) r [] eq_refl Hr) as (A0 & v & E & Y).
  apply sreached_cut in Rd. rewrite slogs_app_log in Hc.
  assert (Cm : forall e, In e (sevents (flat_map server_app (rights L))) -> is_command e = true -> e = command_event cmd).
  { intros e He Hcm.
    assert (Hin : In (sev e) (flat_map server_app (rights L))).
    { revert He. generalize (flat_map server_app (rights L)). clear. intro S. induction S as [|k S IH]; [intros []|].
      destruct k as [| | | | | | |[]|]; cbn; intro H; try (right; apply IH; exact H).
      destruct H as [->|H]; [now left|right; apply IH; exact H]. }
    destruct (r_command K _ _ _ _ e Rd Hin Hcm) as (c' & E' & Hin'). now rewrite (Hc c' Hin') in E'. }
  assert (Hv : In v (sevents (flat_map server_app (rights L)))).
  { rewrite E. apply sevents_in. }
  destruct v as [g0|h0 r0|c|ca|d|t0|]; try contradiction.
  - exfalso. specialize (Cm _ Hv eq_refl). discriminate.
  - specialize (Cm _ Hv eq_refl). injection Cm as ->.
    destruct r as [ | |q [h|]|v [h|]| | | | |]; try contradiction; cbn in Hx; try contradiction;
      subst; destruct Hx as [<-|[]]; cbn; auto.
  - destruct r as [ | |q [h|]|v [h|]| | | | |]; try contradiction; cbn in Hx; try contradiction;
      destruct Hx as [<-|[]]; [subst; cbn; auto|]. destruct Y as (ca & Hca & ->).
    specialize (Cm _ Hca eq_refl). injection Cm as ->. cbn; auto.
Qed.

Lemma auth_rest : forall z L stc sts, talk z L -> psteps PC (lefts L) stc -> psteps PS (rights L) sts ->
  lits_fit o (enc_command K cmd) -> ~ at_rest z.
Proof.
  intros z L stc sts Tk S1 S2 Fit Rest.
  assert (Pr : pair K PC PS L) by (split; eauto).
  destruct (pair_orderly K relaxed o gc gs gr T1 T2 PC PS cmd _ _ Ag auth_fine auth_nice auth_says z L Tk Pr) as [Ord Own].
  pose proof (pair_given K relaxed o gc gs gr T1 T2 PC PS cmd _ _ Ag auth_fine auth_nice auth_says z L Tk Pr) as Gt.
  destruct (auth_fine z L Tk Pr) as (Only & _).
  pose proof (arrived_requests z L cmd Tk Ord Own Rest Only Fit) as Rq.
  pose proof (arrived_responses z L cmd Tk Ord Own Rest Only Fit) as Rs.
  pose proof (arrived_greeted z L Tk Ord Own Rest) as Gr.
  destruct (net_views K relaxed o gc gs gr T1 T2 z L Tk Ord Own) as [Vw _].
  destruct (talk_waits PC PS z L stc sts Tk S1 S2) as [W1 W2].
  destruct (W1 (proj1 (proj2 (proj2 Rest)))) as (pc & ->). destruct (W2 (proj2 (proj2 (proj2 Rest)))) as (ps & ->).
  destruct (talk_client _ _ _ _ _ _ _ _ _ _ Tk) as (f & s & acts & x & R1).
  destruct (client_authenticate_rs_inv K t _ _ _ _ _ _ _ _ _ _ R1 S1) as [J1 _].
  destruct (c_stream_reached _ _ _ _ _ _ _ _ _ _ R1) as [Rc _].
  destruct (talk_server _ _ _ _ _ _ _ _ _ _ Tk) as (f2 & s2 & acts2 & x2 & R2).
  destruct (server_authenticate_rs_inv K _ _ _ _ _ _ _ _ _ _ _ R2 S2) as [J2 _].
  rewrite <- clogs_app_log in J1, Rc. rewrite <- slogs_app_log in J2.
  rewrite <- given_app_log, <- slogs_app_log in Rs, Gt.
  set (A := clogs (app_log L)) in *. set (S := slogs (app_log L)) in *. clearbody A S.
  destruct pc as [|ds]; [exact (proj2 (J1 : awaiting _) Gr)|].
  destruct J1 as (h & A2 & B & C & Te & _).
  assert (En : enqueued A = [(h, cmd)]) by (eapply begins_enqueued; [exact B|eapply given_not_enqueued; exact C]).
  destruct B as (A1 & y & EA & C1 & _).
  assert (Ea : asks A = asks A2).
  { rewrite EA. change (ClNext (IEvent (CeGreetingReceived y)) :: ClEnqueue cmd h :: A2)
      with ([ClNext (IEvent (CeGreetingReceived y)); ClEnqueue cmd h] ++ A2). rewrite !asks_app.
    rewrite (no_asks relaxed gc A1); [reflexivity| |now apply no_calls_enqueued|].
    - rewrite EA in Rc. now apply creached_cut in Rc.
    - rewrite EA, terminals_app in Te. now apply app_eq_nil in Te as [Te _]. }
  set (n := asks A2) in *.
  assert (Req : requests A = RqCommand cmd :: map RqData (answers authenticate_data n)).
  { unfold requests. rewrite Te. cbn. unfold segment_requests. rewrite En. cbn.
    rewrite (no_end_segment A (no_terminals A Te)), answers_calls, app_nil_r. f_equal.
    rewrite EA, c_calls_app, C1. cbn. fold (c_calls A2). rewrite C. unfold given_data.
    induction (answers authenticate_data n) as [|d k IH]; [reflexivity|]. cbn. now rewrite IH. }
  rewrite Req in Rq. cbn in Rq.
  destruct ps as [|cur]; [cbn in J2; subst S; discriminate|].
  destruct J2 as (_ & F2 & _). rewrite asked_reports, Rq in F2.
  apply answered_length in F2. rewrite <- calls_given, <- Rs in F2. cbn in F2.
  assert (Ln : length (reported_all (events A)) = Datatypes.S n).
  { rewrite F2. f_equal. unfold command_event. cbn.
    assert (X : length (answers authenticate_data n) = n).
    { unfold answers. rewrite firstn_length, app_length, repeat_length. lia. }
    transitivity (length (answers authenticate_data n)); [|exact X]. generalize (answers authenticate_data n). clear.
    intro k. induction k as [|d k IH]; [reflexivity|]. cbn. now rewrite IH. }
  assert (Le : length (reported_all (events A)) <= asks A).
  { assert (Y : forall e r, In e (events A) -> reported e = Some r ->
      exists h q, e = CeAuthenticateContinuationRequestReceived h q).
    { intros e r He Hr.
      assert (Hg : In r (authenticate_texts t)).
      { apply Gt. rewrite <- Rs. apply reported_in. eauto. }
      assert (Nt : is_terminal e = false).
      { destruct (is_terminal e) eqn:E; [|reflexivity]. exfalso.
        assert (X : In e (terminals A)) by (apply filter_In; now split). rewrite Te in X. destruct X. }
      destruct (events_split A e He) as (B1 & B2 & EB). pose proof (Vw _ _ _ EB) as Ve.
      destruct e; try discriminate; cbn in Hr, Ve; try contradiction; eauto; injection Hr as <-; exfalso.
      - (* IDLE *)
        pose proof (r_current K relaxed gc A Rc) as Cu. unfold current, cur_seg in Cu. rewrite Te, En in Cu. cbn in Cu.
        rewrite (no_end_segment A (no_terminals A Te)) in Cu. destruct Cu as (bs & m & Cv).
        assert (X : exists q0 h1, In (XAccepted h1 q0) (exchange A)).
        { do 2 eexists. rewrite EB, exchange_app. apply in_or_app. right. now left. }
        destruct X as (q0 & h1 & X).
        exact (only_idle_accepted _ _ _ _ _ _ _ Cv X eq_refl).
      - cbn in Hg. intuition discriminate.
      - (* status *)
        match goal with s : status |- _ => destruct s as [t0 b|b|cc tt] end; try (cbn in Hg; intuition discriminate).
        destruct Ve as [_ (k & h0 & c0 & e0 & _ & _ & Hk & _)]. apply nth_error_In in Hk.
        assert (X : In e0 (terminals A)) by (rewrite EB, terminals_app; apply in_or_app; now left).
        rewrite Te in X. destruct X. }
    revert Y. unfold asks. generalize (events A). clear. intros es Y. induction es as [|e es IH]; [apply le_n|].
    assert (IH' : length (reported_all es) <= length (filter (fun e => match e with CeAuthenticateContinuationRequestReceived _ _ => true | _ => false end) es)).
    { apply IH. intros e0 r0 H0. apply Y. now right. }
    cbn. destruct (reported e) as [r|] eqn:E.
    - destruct (Y e r (or_introl eq_refl) E) as (h & q & ->). cbn. lia.
    - destruct e; cbn in *; lia. }
  lia.
Qed.
End Auth.
(** ** client_idle.rs and server_idle.rs *)
Section Idle.
Context (expunge : bytes).
Notation PC := (client_idle_rs K).
Notation PS := (server_idle_rs K expunge).
Notation cmd := idle_command.
Context (Ag : agreed K relaxed o gr cmd (idle_texts expunge) []).

Lemma idle_fine : forall z L, talk z L -> pair K PC PS L -> client_fine cmd [] (clogs (app_log L)).
Proof.
  intros z L Tk [(stc & S1) _]. destruct (talk_client _ _ _ _ _ _ _ _ _ _ Tk) as (f & s & acts & x & R).
  destruct (client_idle_rs_inv K _ _ _ _ _ _ _ _ _ _ R S1) as [_ G].
  rewrite clogs_app_log. destruct G as [E|(h & A2 & B & E)].
  - split; [left; now apply no_calls_enqueued|].
    split; [intros d h Hin|intros h Hin]; exfalso;
      eapply (in_nil (A := clog)); rewrite <- E; apply filter_In; split; [exact Hin|reflexivity|exact Hin|reflexivity].
  - split; [right; exists h; eapply begins_enqueued; [exact B|now apply only_done_enqueued]|].
    split; [|intros; reflexivity]. intros d h0 Hin. exfalso. destruct B as (A1 & y & EA & E1 & _).
    assert (Hc : In (ClSetAuth d (inl h0)) (c_calls (flat_map client_app (lefts L)))) by (apply filter_In; now split).
    rewrite EA, c_calls_app, E1 in Hc. cbn in Hc. destruct Hc as [Hc|Hc]; [discriminate|].
    destruct (E _ Hc) as (r & Er). discriminate.
Qed.

Lemma idle_nice : forall z L, talk z L -> pair K PC PS L -> polite (slogs (app_log L)).
Proof.
  intros z L Tk [_ (sts & S2)]. destruct (talk_server _ _ _ _ _ _ _ _ _ _ Tk) as (f & s & acts & x & R).
  destruct (server_idle_rs_inv K _ _ _ _ _ _ _ _ _ _ _ _ R S2) as [_ G]. rewrite slogs_app_log. apply G.
Qed.

Lemma idle_says : forall z L p r, talk z (L ++ [NR (@XCall SM p r)]) -> pair K PC PS (L ++ [NR (@XCall SM p r)]) ->
  (forall c, In (IEvent (command_event c)) (sreports (slogs (app_log L))) -> c = cmd) ->
  forall x, In x (accepted r) -> In x (idle_texts expunge).
Proof.
  intros z L p r Tk [_ (sts & S2)] Hc x Hx.
  destruct (talk_server _ _ _ _ _ _ _ _ _ _ Tk) as (f & s & acts & y & R).
  destruct (s_stream_reached _ _ _ _ _ _ _ _ _ _ _ R) as [Rd Ty].
  pose proof (server_idle_rs_says K _ _ _ S2 Ty) as J. rewrite rights_app in J, Rd. rewrite flat_map_app in J, Rd.
  cbn in J, Rd.
  assert (Hr : s_call r = true) by (destruct r; try contradiction; reflexivity).
  pose proof (J (flat_map server_app (rights L)) r [] eq_refl Hr) as Y.
  apply sreached_cut in Rd. rewrite slogs_app_log in Hc.
  assert (Cm : forall t, In (SeIdleCommandReceived t) (sevents (flat_map server_app (rights L))) -> t = idle_tag).
  { intros t He.
    assert (Hin : In (sev (SeIdleCommandReceived t)) (flat_map server_app (rights L))).
    { revert He. generalize (flat_map server_app (rights L)). clear. intro S. induction S as [|k S IH]; [intros []|].
      destruct k as [| | | | | | |[]|]; cbn; intro H; try (right; apply IH; exact H).
      destruct H as [->|H]; [now left|right; apply IH; exact H]. }
    destruct (r_command K _ _ _ _ _ Rd Hin eq_refl) as (c' & E' & Hin'). rewrite (Hc c' Hin') in E'.
    now injection E' as <-. }
  unfold idle_texts.
  destruct r as [[v|d|q] h| |q [h|]|v [h|]|q [h|]|v [h|]| | |]; try contradiction; cbn in Hx, Y; try contradiction;
    destruct Hx as [<-|[]].
  - destruct Y as (A0 & t & _ & -> & Ht). rewrite (Cm t Ht). cbn; auto.
  - subst d. cbn; auto.
  - subst q. cbn; auto.
  - destruct Y as (t & -> & Ht). rewrite (Cm t Ht). cbn; auto.
Qed.

Lemma idle_rest : forall z L stc sts, talk z L -> psteps PC (lefts L) stc -> psteps PS (rights L) sts ->
  lits_fit o (enc_command K cmd) -> at_rest z ->
  greetings (events (clogs (app_log L))) = [gr] /\
  sreports (slogs (app_log L)) = [IEvent (SeIdleCommandReceived idle_tag)] /\
  ((stc = @PAt CM PC IpIdle /\
    (unanswered (slogs (app_log L)) \/
     exists h q, exchange (clogs (app_log L)) = [XIdle h; XAccepted h q] /\ terminals (clogs (app_log L)) = [])) \/
   (stc = @PAt CM PC IpStatus /\ exists h s, In (CeIdleRejected h s) (events (clogs (app_log L))))).
Proof.
  intros z L stc sts Tk S1 S2 Fit Rest.
  assert (Pr : pair K PC PS L) by (split; eauto).
  destruct (pair_orderly K relaxed o gc gs gr T1 T2 PC PS cmd _ _ Ag idle_fine idle_nice idle_says z L Tk Pr) as [Ord Own].
  pose proof (pair_given K relaxed o gc gs gr T1 T2 PC PS cmd _ _ Ag idle_fine idle_nice idle_says z L Tk Pr) as Gt.
  destruct (idle_fine z L Tk Pr) as (Only & _).
  pose proof (arrived_requests z L cmd Tk Ord Own Rest Only Fit) as Rq.
  pose proof (arrived_responses z L cmd Tk Ord Own Rest Only Fit) as Rs.
  pose proof (arrived_greeted z L Tk Ord Own Rest) as Gr.
  split; [exact (arrived_greeting z L Tk Ord Own Rest)|].
  destruct (net_views K relaxed o gc gs gr T1 T2 z L Tk Ord Own) as [Vw _].
  destruct (talk_waits PC PS z L stc sts Tk S1 S2) as [W1 W2].
  destruct (W1 (proj1 (proj2 (proj2 Rest)))) as (pc & ->). destruct (W2 (proj2 (proj2 (proj2 Rest)))) as (ps & ->).
  destruct (talk_client _ _ _ _ _ _ _ _ _ _ Tk) as (f & s & acts & x & R1).
  destruct (client_idle_rs_inv K _ _ _ _ _ _ _ _ _ _ R1 S1) as [J1 _].
  destruct (c_stream_reached _ _ _ _ _ _ _ _ _ _ R1) as [Rc _].
  destruct (talk_server _ _ _ _ _ _ _ _ _ _ Tk) as (f2 & s2 & acts2 & x2 & R2).
  destruct (server_idle_rs_inv K _ _ _ _ _ _ _ _ _ _ _ _ R2 S2) as [J2 _].
  rewrite <- clogs_app_log in J1, Rc. rewrite <- slogs_app_log in J2.
  rewrite <- given_app_log, <- slogs_app_log in Rs, Gt.
  set (A := clogs (app_log L)) in *. set (S := slogs (app_log L)) in *. clearbody A S.
  assert (En : exists h, enqueued A = [(h, cmd)]).
  { destruct pc.
    - exfalso. exact (proj2 (J1 : awaiting _) Gr).
    - destruct J1 as (h & A2 & B & D & _). exists h. eapply begins_enqueued; [exact B|now apply only_done_enqueued].
    - destruct J1 as (h & e & A3 & I & _). exists h. now destruct (idled_parts _ _ _ _ _ _ Rc I) as (A0 & _ & En & _). }
  destruct En as (h & En). pose proof (few_terminals _ _ _ _ _ Rc En) as Few.
  rewrite (one_request A h cmd En Few) in Rq. cbn in Rq.
  (* No DONE: it would have been answered. *)
  assert (Dn : SpecSystem.answers (exchange (segment 0 A)) = [RqDone] ->
    exists e, In e (events A) /\ reported e = Some (RStatus (idle_ok idle_tag))).
  { intro Ea. rewrite Ea in Rq. cbn in Rq. destruct ps as [|cur]; [cbn in J2; subst S; discriminate|].
    destruct J2 as (_ & Js & _). rewrite dones_reports, Rq in Js. cbn in Js.
    apply reported_in. rewrite Rs. apply statuses_given. rewrite Js. now left. }
  destruct pc as [| |].
  - exfalso. exact (proj2 (J1 : awaiting _) Gr).
  - destruct J1 as (h' & A2 & B & D & Te).
    pose proof (r_current K relaxed gc A Rc) as Cu. unfold current, cur_seg in Cu. rewrite Te, En in Cu. cbn in Cu.
    rewrite (no_end_segment A (no_terminals A Te)) in Cu, Rq, Dn. destruct Cu as (bs & m & Cv).
    assert (Ns : forall e t b, In e (events A) -> reported e = Some (RStatus (StTagged t b)) -> False).
    { intros e t b He Hr.
      assert (Nt : is_terminal e = false).
      { destruct (is_terminal e) eqn:E; [|reflexivity]. exfalso.
        assert (X : In e (terminals A)) by (apply filter_In; now split). rewrite Te in X. destruct X. }
      destruct (events_split A e He) as (B1 & B2 & EB).
      destruct e; try discriminate. cbn in Hr. injection Hr as ->.
      apply (status_concluded A B1 B2 t b Vw EB). rewrite EB, terminals_app in Te. now apply app_eq_nil in Te. }
    assert (Ex : exchange A = [] \/ exchange A = [XIdle h] \/ (exists q, exchange A = [XIdle h; XAccepted h q])).
    { assert (Y : SpecSystem.answers (exchange A) = [RqDone] -> False).
      { intro Ea. destruct (Dn Ea) as (e & He & Hr). exact (Ns e _ _ He Hr). }
      revert Y. generalize dependent (exchange A). intros xs _ _ Cv Y.
      inversion Cv as [ |? ? Hrg|? ? ? Hrg|ca line Hca| ca line ? ? ? ? Hca|line ? Hi _ Hx|line q dn Hi]; subst; auto;
        try (destruct Hrg as (? & Hrg); discriminate); try discriminate;
        try (destruct Hx as [->|[->|[(q & ->)|(q & ->)]]]; eauto; exfalso; now apply Y).
      exfalso; now apply Y. }
    assert (Ea : SpecSystem.answers (exchange A) = []) by (destruct Ex as [->|[->|(q & ->)]]; reflexivity).
    rewrite Ea in Rq. cbn in Rq. split; [exact Rq|]. left. split; [reflexivity|].
    destruct (acceptances S) as [|r0 rs0] eqn:Ac.
    + left. apply acceptances_nil. exact Ac.
    + right. assert (Hin : In r0 (flat_map accepted S)).
      { apply acceptances_given. rewrite Ac. now left. }
      assert (Hk : (exists q, r0 = RCcr q) \/ exists t b, r0 = RStatus (StTagged t b)).
      { pose proof (Gt _ Hin) as Ht. assert (Hin' : In r0 (acceptances S)) by (rewrite Ac; now left).
        cbn in Ht. destruct Ht as [<-|[<-|[<-|[<-|[]]]]];
          [left; eauto|exfalso; exact (acceptances_not_data _ _ Hin')|right; do 2 eexists; reflexivity..]. }
      rewrite <- Rs in Hin. apply reported_in in Hin as (e & He & Hr).
      destruct Hk as [(q & ->)|(t & b & ->)]; [|exfalso; exact (Ns e _ _ He Hr)].
      destruct (events_split A e He) as (B1 & B2 & EB). pose proof (Vw _ _ _ EB) as Ve.
      exists h. enough (X : exists q, exchange A = [XIdle h; XAccepted h q]) by (destruct X; eauto).
      destruct e; try discriminate; try contradiction; cbn in Hr; injection Hr as ->.
      * assert (X : In (XCont h0 q) (exchange A)).
        { rewrite EB, exchange_app. apply in_or_app. right. now left. }
        exfalso. destruct Ex as [E|[E|(q0 & E)]]; rewrite E in X; cbn in X; intuition discriminate.
      * assert (X : In (XAccepted h0 q) (exchange A)).
        { rewrite EB, exchange_app. apply in_or_app. right. now left. }
        destruct Ex as [E|[E|(q0 & E)]]; rewrite E in X; cbn in X; eauto; exfalso; intuition discriminate.
  - destruct J1 as (h' & e & A3 & I & F). destruct (idled_parts _ _ _ _ _ _ Rc I) as (A0 & EA & En' & T0 & Te).
    assert (h' = h) by (rewrite En in En'; now injection En'). subst h'.
    assert (Hn : e <> CeIdleDoneSent h).
    { intros ->. destruct (r_done K relaxed gc A Rc 0 (CeIdleDoneSent h)) as (h1 & c1 & E1 & bs & m & Cv); [now rewrite Te|].
      rewrite En in E1. injection E1 as <- <-.
      assert (Ea : SpecSystem.answers (exchange (segment 0 A)) = [RqDone]).
      { revert Cv. generalize (exchange (segment 0 A)). intros xs Cv. inversion Cv; subst; reflexivity. }
      destruct (Dn Ea) as (ev & He & Hr).
      destruct (events_split A ev He) as (B1 & B2 & EB).
      assert (Ev : ev = CeStatusReceived (idle_ok idle_tag)).
      { destruct (is_terminal ev) eqn:Et.
        - assert (X : In ev (terminals A)) by (apply filter_In; now split). rewrite Te in X. destruct X as [<-|[]]. discriminate.
        - destruct ev; try discriminate. cbn in Hr. now injection Hr as ->. }
      subst ev.
      assert (Hin : In (ClNext (IEvent (CeStatusReceived (idle_ok idle_tag)))) A).
      { rewrite EB. apply in_or_app. right. now left. }
      rewrite EA in Hin. apply in_app_or in Hin as [Hin|[Hin|Hin]]; [|discriminate|].
      - apply in_split in Hin as (C1 & C2 & EC). rewrite EC in EA. rewrite <- app_assoc in EA.
        apply (status_concluded A C1 _ _ _ Vw EA). rewrite EC, terminals_app in T0. now apply app_eq_nil in T0.
      - apply (F _ Hin). eexists. reflexivity. }
    assert (Hs : exists s, e = CeIdleRejected h s) by (destruct I as (A2 & _ & _ & [->|(s0 & -> & _)] & _); eauto; contradiction).
    destruct Hs as (s0 & ->). split.
    + destruct (r_done K relaxed gc A Rc 0 (CeIdleRejected h s0)) as (h1 & c1 & E1 & bs & m & Cv); [now rewrite Te|].
      rewrite En in E1. injection E1 as <- <-.
      assert (Ea : SpecSystem.answers (exchange (segment 0 A)) = []).
      { revert Cv. generalize (exchange (segment 0 A)). intros xs Cv.
        inversion Cv as [| | |line tl s1 Hi _ Hx|]; subst. destruct Hx as [->|(q & ->)]; reflexivity. }
      rewrite Ea in Rq. exact Rq.
    + right. split; [reflexivity|]. exists h, s0. rewrite EA, events_app. apply in_or_app. right. now left.
Qed.

(** The client returns only after DONE. *)
Lemma idle_return : forall z L sts, talk z L -> psteps PC (lefts L) (PEnd EndReturned) -> psteps PS (rights L) sts ->
  exists h, terminals (clogs (app_log L)) = [CeIdleDoneSent h].
Proof.
  intros z L sts Tk S1 S2.
  assert (Pr : pair K PC PS L) by (split; eauto).
  destruct (pair_orderly K relaxed o gc gs gr T1 T2 PC PS cmd _ _ Ag idle_fine idle_nice idle_says z L Tk Pr) as [Ord Own].
  destruct (net_views K relaxed o gc gs gr T1 T2 z L Tk Ord Own) as [Vw _].
  destruct (talk_client _ _ _ _ _ _ _ _ _ _ Tk) as (f & s & acts & x & R1).
  destruct (client_idle_rs_inv K _ _ _ _ _ _ _ _ _ _ R1 S1) as [J1 _].
  destruct (c_stream_reached _ _ _ _ _ _ _ _ _ _ R1) as [Rc _].
  rewrite <- clogs_app_log in J1, Rc.
  destruct J1 as (h & e & A3 & y & I & _ & Hy). exists h.
  assert (E : e = CeIdleDoneSent h).
  { eapply (idle_returned _ _ _ _ _ _ Rc Vw I). exists y. split; [apply in_or_app; right; now left|exact Hy]. }
  subst e. now destruct (idled_parts _ _ _ _ _ _ Rc I) as (A0 & _ & _ & _ & Te).
Qed.
End Idle.
End Rest.
