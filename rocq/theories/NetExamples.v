(** Concrete runs of two connected streams, with the toy codec, without TLS and with the toy
    session. *)
From Coq Require Import String List NArith Bool PeanoNat Lia.
From Verif Require Import Base Types Codec Handle Receive ServerSend ClientSend Client Server
  SpecFraming SpecClient SpecServer ToyCodec ToyLaws ClientExamples ServerExamples
  System SpecSystem SpecSystemLive SystemLog SystemExamples
  Stream StreamMachine SpecStream ToyTls Net SpecNet NetProofs.
Import ListNotations.
Open Scope list_scope.

Notation CM := (client_machine toy).
Notation SM := (server_machine toy).
Definition TL : tls := toy_tls 200 false.
Notation nst := (net TL TL CM SM).
Notation nac := (nact CM SM).
Definition x_fuel : nat := 400.

(** A scheduler: write what has to be written, call [next], deliver 7 bytes. *)
Definition side_act {M} (x : xstate TL M) : option (act M) :=
  match x_f x with
  | FIdle => Some ANext
  | FSelect | FFlushWrite => Some (AWrite (Some (List.length (x_wbuf (x_s x)))))
  | FFlushTcp => Some (AFlushed true)
  | FRead | FDead => None
  end.
Definition pick (z : nst) : nac :=
  match side_act (n_l z), side_act (n_r z) with
  | Some a, _ => NLeft a
  | _, Some a => NRight a
  | _, _ => match n_right z with [] => NToLeft 7 | _ => NToRight 7 end
  end.
Notation nstep := (net_step TL TL CM SM x_fuel).
Fixpoint drive (n : nat) (z : nst) : list nac * nst :=
  match n with
  | O => ([], z)
  | S n' =>
      match x_f (n_l z), x_f (n_r z), n_right z, n_left z with
      | FRead, FRead, [], [] => ([], z)
      | _, _, _, _ =>
          let a := pick z in
          let '(acts, z') := drive n' (fst (nstep z a)) in (a :: acts, z')
      end
  end.
(** The calls of the script; after each group everything that can happen happens. *)
Fixpoint play (script : list (list nac)) (z : nst) : list nac :=
  match script with
  | [] => []
  | s :: script' =>
      let '(acts, z') := drive 500 (fst (net_run TL TL CM SM x_fuel z s)) in
      s ++ acts ++ play script' z'
  end.

Definition c_call (p : capp) : nac := NLeft (@ACall CM p).
Definition s_call (p : sapp) : nac := NRight (@ACall SM p).
Definition c_cancel : nac := NLeft ACancel.
Definition s_cancel : nac := NRight ACancel.

(** The conversation of [acts_done]. *)
Definition n_script : list (list nac) :=
  [ [c_call (CaEnqueueCommand ex_login)];
    [c_cancel; c_call (CaEnqueueCommand ex_append); c_call (CaEnqueueCommand ex_auth);
     c_call (CaEnqueueCommand ex_idle);
     s_cancel; s_call (SaEnqueue ex_fetch); s_call (SaEnqueue (ex_ok "A2"))];
    [s_cancel; s_call (SaAuthenticateContinue (CcrBasic None (B "data?")))];
    [c_cancel; c_call (CaSetAuthenticateData (ADContinue (B "secret")))];
    [s_cancel; s_call (SaAuthenticateFinish (StTagged (B "A3") (StatusBody SkOk None (B "in"))))];
    [s_cancel; s_call (SaIdleAccept (CcrBasic None (B "idling")))];
    [c_cancel; c_call CaSetIdleDone];
    [s_cancel; s_call (SaEnqueue (ex_ok "A4"))] ].

Definition n_plain : nst :=
  net_new TL TL CM SM (stream_insecure TL) (client_new ex_gen false)
    (stream_insecure TL) (server_new ygen_s y_opts ex_greeting).
Definition n_tls : nst :=
  net_new TL TL CM SM (stream_tls TL toy_session_new) (client_new ex_gen false)
    (stream_tls TL toy_session_new) (server_new ygen_s y_opts ex_greeting).

Definition n_acts (z : nst) : list nac := play n_script z.
Definition n_run (z : nst) := net_run TL TL CM SM x_fuel z (n_acts z).
Definition n_end (z : nst) : nst := fst (n_run z).
Definition n_log (z : nst) : list (nlog CM SM) := snd (n_run z).

Definition n_app : list ylog := app_log (n_log n_plain).
(** With TLS the applications see the same, in the same order. *)
Lemma n_same : app_log (n_log n_tls) = n_app.
Proof. vm_compute. reflexivity. Qed.

Lemma n_orderly : orderly toy false y_opts ex_greeting n_app.
Proof.
  constructor.
  - enough (H : Forall (msg_roundtrips toy false) (scheduled y_opts ex_greeting (slogs n_app)))
      by (intros m Hm; rewrite Forall_forall in H; now apply H).
    remember (scheduled y_opts ex_greeting (slogs n_app)) as ms eqn:E.
    vm_compute in E. subst ms.
    repeat apply Forall_cons; try apply Forall_nil; cbn [msg_roundtrips]; try one_line.
    exists [4%N].
    apply (with_literal (dec_response toy) false accept_any
      (ln "* 1 FETCH {4}") [CR; LF; LF; CR] (ln ")")); vm_compute; reflexivity.
  - assert (E : enqueued (clogs n_app) = enqueued (clogs (yx_log y_opts acts_done)))
      by (vm_compute; reflexivity).
    rewrite E. exact (or_cmds _ _ _ _ _ talk_orderly).
  - intros d h Hd.
    assert (E : d = ADContinue (B "secret")).
    { remember (clogs n_app) as lc eqn:E. vm_compute in E. subst lc.
      repeat (destruct Hd as [Hd|Hd]; [try discriminate; now injection Hd as <- _|]). contradiction. }
    subst d. split.
    + exists (ln "secret"). split; [reflexivity|]. split; [good_line|]. split; [good_line|]. reflexivity.
    + unfold line_fits. cbn. unfold N.le. cbn. discriminate.
  - intros h _. split.
    + exists (ln "DONE"). split; [reflexivity|]. split; [good_line|]. split; [good_line|]. reflexivity.
    + unfold line_fits. cbn. unfold N.le. cbn. discriminate.
  - reflexivity.
  - assert (E : map (fun x => ctag (snd x)) (enqueued (clogs n_app)) =
      [B "A2"; B "A5"; B "A3"; B "A4"]) by (vm_compute; reflexivity).
    rewrite E. repeat constructor; cbn; intuition discriminate.
  - intros l1 e l2 E. apply (polite_from_ok (slogs n_app) []) with (l2 := l2); [|exact E].
    clear E. remember (slogs n_app) as ls eqn:E. vm_compute in E. subst ls.
    cbn [polite_from app].
    repeat match goal with
    | |- _ /\ _ => split
    | |- True => exact I
    | |- _ => first [exact I | vm_compute; reflexivity | vm_compute; left; reflexivity
        | vm_compute; right; left; reflexivity
        | vm_compute; eauto 8]
    end.
Qed.

Lemma n_own : own_roundtrips toy false y_opts n_app.
Proof.
  split; [cbn [msg_roundtrips]; one_line|]. intros h c H.
  assert (E : enqueued (clogs n_app) =
    [(hd_ 0, ex_login); (hd_ 1, ex_append); (hd_ 2, ex_auth); (hd_ 3, ex_idle)]) by (vm_compute; reflexivity).
  rewrite E in H.
  destruct H as [H|[H|[H|[H|[]]]]]; injection H as _ <-; cbn [msg_roundtrips]; one_line.
Qed.

(** The toy sessions understand each other. *)
Lemma feed1_grows : forall t b, prefix (y_pend t) (y_pend (toy_feed1 t b)).
Proof.
  intros t b. unfold toy_feed1. destruct (_ || _); [apply prefix_refl|].
  destruct (y_half t); [apply prefix_self|]. destruct (Byte.eqb b x17); [apply prefix_refl|].
  destruct (Byte.eqb b x15); apply prefix_refl.
Qed.
Lemma feed_grows : forall x t, prefix (y_pend t) (y_pend (toy_feed t x)).
Proof.
  induction x as [|b x IH]; intro t; [apply prefix_refl|].
  exact (prefix_trans _ _ _ _ (feed1_grows t b) (IH _)).
Qed.
Lemma toy_link : forall c1 e1 c2 e2, tls_link (toy_tls c1 e1) (toy_tls c2 e2) toy_session_new toy_session_new
  toy_peer toy_rel toy_dec.
Proof.
  intros. split.
  - apply toy_tls_sends.
  - apply toy_tls_receives.
  - now exists [].
  - now split.
  - reflexivity.
  - intros e e'. unfold toy_peer, toy_dec. rewrite feed_app. apply feed_grows.
Qed.

Definition ends_well {M} (r : sret M) : bool := match r with RetIo | RetTls => false | _ => true end.
Lemma no_error_check : forall M (l : list (xlog M)), forallb ends_well (xrets l) = true -> no_error l.
Proof.
  intros M l H. rewrite forallb_forall in H. split; intro E; apply H in E; discriminate.
Qed.

Lemma n_talk_plain : talk false y_opts ex_gen ygen_s ex_greeting TL TL (n_end n_plain) (n_log n_plain).
Proof.
  eapply (talk_plain _ _ _ _ _ _ _ _ _ x_fuel (n_acts n_plain)).
  unfold n_end, n_log, n_run. now destruct (net_run _ _ _ _ _ _ _).
Qed.
Lemma n_talk_tls : talk false y_opts ex_gen ygen_s ex_greeting TL TL (n_end n_tls) (n_log n_tls).
Proof.
  apply (@talk_tls toy false y_opts ex_gen ygen_s ex_greeting TL TL _ _ x_fuel (n_acts n_tls)
    toy_session_new toy_session_new toy_peer toy_rel toy_dec toy_peer toy_rel toy_dec).
  - apply toy_link.
  - apply toy_link.
  - unfold n_end, n_log, n_run. now destruct (net_run _ _ _ _ _ _ _).
  - apply no_error_check. vm_compute. reflexivity.
  - apply no_error_check. vm_compute. reflexivity.
  - vm_compute. discriminate.
  - vm_compute. discriminate.
Qed.

(** The literal of APPEND is too long. Told so, the application of the server enqueues "BYE";
    then everything that can happen happens. *)
Definition ex_bye : response := RData (DOther (B "BYE")).
Definition n_reject : list nac :=
  c_call (CaEnqueueCommand ex_append) ::
  firstn 11 (fst (drive 500 (fst (nstep n_plain (c_call (CaEnqueueCommand ex_append)))))) ++
  [s_call (SaEnqueue ex_bye)].
Definition n_stall : list nac :=
  n_reject ++ fst (drive 500 (fst (net_run TL TL CM SM x_fuel n_plain n_reject))).
Definition stall_run := net_run TL TL CM SM x_fuel n_plain n_stall.

Lemma stall_facts :
  talk false y_opts ex_gen ygen_s ex_greeting TL TL (fst stall_run) (snd stall_run) /\
  at_rest (fst stall_run) /\
  given (rights (snd stall_run)) = [ex_bye] /\
  told_sent (slogs (app_log (snd stall_run))) = [] /\
  reported_all (events (clogs (app_log (snd stall_run)))) =
    [RStatus (StTagged (B "A5") (StatusBody SkBad None (B "too long")))].
Proof.
  split.
  { eapply (talk_plain _ _ _ _ _ _ _ _ _ x_fuel n_stall). unfold stall_run.
    now destruct (net_run _ _ _ _ _ _ _). }
  split; [repeat split; vm_compute; reflexivity|]. split; [|split]; vm_compute; reflexivity.
Qed.

(** A session that accepts 8 bytes at a time: the last byte of the first command is lost, and
    [next] returns an error. The application continues. *)
Definition T8 : tls := toy_tls 8 false.
Definition n_eight : net T8 T8 CM SM :=
  net_new T8 T8 CM SM (stream_tls T8 toy_session_new) (client_new ex_gen false)
    (stream_tls T8 toy_session_new) (server_new ygen_s y_opts (Greeting GkOk None (B ""))).
Definition eight_acts : list nac :=
  [NLeft (@ACall CM (CaEnqueueCommand (cmd "A" "NOOPS"))); NRight ANext; NRight (AWrite (Some 14)); NRight ANext;
   NLeft ANext; NToLeft 14; NLeft ANext; NLeft ANext; NLeft ANext;
   NLeft (AWrite (Some 16)); NToRight 16].
Definition eight_run := net_run T8 T8 CM SM x_fuel n_eight eight_acts.

Lemma eight_facts :
  at_rest (fst eight_run) /\
  xrets (lefts (snd eight_run)) = [RetEvent (CeGreetingReceived (Greeting GkOk None (B "")) : m_ev CM); RetIo;
    RetEvent (CeCommandSent (hd_ 0) (cmd "A" "NOOPS") : m_ev CM)] /\
  xoutputs (lefts (snd eight_run)) = ln "A NOOPS" /\
  xgiven (rights (snd eight_run)) = B "A NOOPS" ++ [CR] /\
  sreports (slogs (app_log (snd eight_run))) = [].
Proof. split; [repeat split; vm_compute; reflexivity|]. repeat split; vm_compute; reflexivity. Qed.

(** LOGIN is enqueued, and then everything that can happen happens. *)
Definition q_start : nst := fst (nstep n_plain (c_call (CaEnqueueCommand ex_login))).
Definition q_acts : list nac := fst (drive 500 q_start).
Definition q_run := net_run TL TL CM SM x_fuel q_start q_acts.

Definition calmb (a : nac) : bool :=
  match a with
  | NLeft (AWrite (Some (S _))) | NRight (AWrite (Some (S _))) => true
  | NLeft ANext | NRight ANext | NLeft (AFlushed true) | NRight (AFlushed true) => true
  | NToRight _ | NToLeft _ => true
  | _ => false
  end.
Lemma calm_check : forall acts, forallb calmb acts = true -> Forall net_calm acts.
Proof.
  intros acts H. rewrite forallb_forall in H. rewrite Forall_forall. intros a I. apply H in I.
  destruct a as [b|b|k|k]; cbn in I |- *; auto; destruct b as [| | |[[|k]|]|[|]| |]; cbn in I |- *; auto; discriminate.
Qed.
Lemma q_calm : Forall net_calm q_acts.
Proof. apply calm_check. vm_compute. reflexivity. Qed.
