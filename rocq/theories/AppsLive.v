(** Connected example programs on working sockets: they come to rest, or go on. *)
From Coq Require Import List NArith Bool PeanoNat Lia.
From Coq Require String.
Import (notations) String.
From Verif Require Import Base Types Codec Handle Receive ClientSend Client ServerSend Server
  SpecFraming SpecClient SpecServer ClientInv ClientThms ServerInv ServerThms System SpecSystem SpecSystemLive
  SystemLog Stream StreamMachine SpecStream StreamProofs StreamState Net SpecNet NetProofs NetSystem NetApp NetRest NetThms
  NetLive NetStall SpecViews NetViews Apps SpecApps AppsProofs AppsClient AppsServer AppsSays AppsNet AppsPairs.
From Verif Require RelayEnd.
Import ListNotations.
Local Open Scope list_scope.

(** ** One side *)
Section Side.
Context (T : tls) (M : machine) (fuel : nat) (P : program M).

(** Entries of a future, and then at most its end. *)
Definition rounded (l : list (xlog M)) : Prop :=
  exists l1 l2, l = l1 ++ l2 /\ forallb inside l1 = true /\
    (l2 = [] \/ (exists r, l2 = [XRet r]) \/ l2 = [XPanic] \/ l2 = [XHang]).

Lemma rounded_cons : forall e l, inside e = true -> rounded l -> rounded (e :: l).
Proof.
  intros e l He (l1 & l2 & -> & H1 & H2). exists (e :: l1), l2. split; [reflexivity|]. split; [cbn; now rewrite He|exact H2].
Qed.
Lemma rounded_end : forall l r, forallb inside l = true -> rounded (l ++ [XRet r]).
Proof. intros l r H. exists l, [XRet r]. repeat split; auto. right. left. eauto. Qed.
Lemma rounded_all : forall l, forallb inside l = true -> rounded l.
Proof. intros l H. exists l, []. rewrite app_nil_r. auto. Qed.

Lemma sync_rounded : forall (s : stream T) (m : m_st M) x' l', sync T M fuel s m = (x', l') -> rounded l'.
Proof.
  intros s m x' l' E. unfold sync in E.
  destruct (sync_input T M fuel s m) as [[[s1 m1] l1] r1] eqn:I.
  assert (Hl : (m1 = None /\ l1 = [XPanic]) \/ (exists m', m1 = Some m') /\ forallb inside l1 = true).
  { unfold sync_input in I. destruct (x_tls s) as [t|].
    - destruct (decrypt T fuel t (x_rbuf s)) as [[t1 rb] [b| | |]].
      + destruct b; [injection I as <- <- <- <-; right; split; [eauto|reflexivity]|].
        destruct (m_enqueue M m _); injection I as <- <- <- <-; [right; split; [eauto|reflexivity]|left; auto].
      + injection I as <- <- <- <-. right. split; [eauto|reflexivity].
      + injection I as <- <- <- <-. right. split; [eauto|reflexivity].
      + injection I as <- <- <- <-. right. split; [eauto|reflexivity].
    - destruct (x_rbuf s); [injection I as <- <- <- <-; right; split; [eauto|reflexivity]|].
      destruct (m_enqueue M m _); injection I as <- <- <- <-; [right; split; [eauto|reflexivity]|left; auto]. }
  destruct Hl as [[-> ->]|[(m' & ->) Hl]].
  { injection E as _ <-. exists [], [XPanic]. split; [reflexivity|]. split; [reflexivity|]. right. right. now left. }
  assert (Fl : forall s2 m2 l2 r, forallb inside l2 = true -> fail T M s2 m2 l2 r = (x', l') -> rounded l').
  { intros s2 m2 l2 r H F. destruct r; injection F as _ <-; try (now apply rounded_end);
      exists l2, [XHang]; (split; [reflexivity|]; split; [exact H|]; right; right; now right). }
  destruct r1 as [r1|]; [eapply Fl; eauto|].
  destruct (m_next M m') as [[m2 r]|].
  2:{ injection E as _ <-. exists l1, [XPanic]. split; [reflexivity|]. split; [exact Hl|]. right. right. now left. }
  assert (Hn : forallb inside (l1 ++ [XNext r]) = true) by (rewrite forallb_app, Hl; reflexivity).
  destruct r as [e| |b|e].
  - injection E as _ <-. now apply rounded_end.
  - destruct (sync_output T fuel s1 []) as [s2 [e|]]; [eapply Fl; eauto|]. injection E as _ <-. now apply rounded_all.
  - destruct (sync_output T fuel s1 b) as [s2 [e|]]; [eapply Fl; eauto|]. injection E as _ <-. now apply rounded_all.
  - injection E as _ <-. now apply rounded_end.
Qed.

Lemma step_rounded : forall (x : xstate T M) a x' l',
  match a with ANext | AWrite _ | ARead _ => True | _ => False end -> xstep T M fuel x a = (x', l') -> rounded l'.
Proof.
  intros x a x' l' Ha E.
  assert (Nil : rounded []) by (now apply rounded_all).
  assert (One : forall r, rounded [XRet r]) by (intro r; now apply (rounded_end [])).
  destruct a as [| |r|r|ok| |p]; try contradiction; cbn [xstep] in E.
  - destruct (x_f x); try (injection E as _ <-; exact Nil).
    destruct (sync T M fuel _ _) as [y k] eqn:E1. injection E as _ <-. apply rounded_cons; [reflexivity|].
    eapply sync_rounded; eauto.
  - destruct (reading (x_f x)); [|injection E as _ <-; exact Nil].
    destruct r as [[|b r]|].
    + injection E as _ <-. now apply rounded_cons.
    + destruct (sync T M fuel _ _) as [y k] eqn:E1. injection E as _ <-. apply rounded_cons; [reflexivity|].
      eapply sync_rounded; eauto.
    + injection E as _ <-. apply One.
  - destruct (writing (x_f x)); [|injection E as _ <-; exact Nil].
    destruct r as [[|n]|].
    + injection E as _ <-. now apply rounded_cons.
    + destruct (Nat.leb (S n) (length (x_wbuf (x_s x)))); [|injection E as _ <-; exact Nil].
      cbn [x_wbuf] in E. destruct (skipn (S n) (x_wbuf (x_s x))) as [|w wb].
      * destruct (x_f x); try (injection E as _ <-; now apply rounded_all).
        destruct (sync T M fuel _ _) as [y k] eqn:E1. injection E as _ <-. apply rounded_cons; [reflexivity|].
        eapply sync_rounded; eauto.
      * injection E as _ <-. now apply rounded_all.
    + injection E as _ <-. apply One.
Qed.

(** A program that waits accepts whatever its future does. *)
Lemma follow_at : forall l p, rounded l -> exists st', follows P (PAt p) l st'.
Proof.
  intros l p (l1 & l2 & -> & H1 & H2). induction l1 as [|e l1 IH].
  - destruct H2 as [->|[(r & ->)|[->| ->]]].
    + eexists. constructor.
    + destruct r as [e| | | | |]; eexists; (eapply fo_cons; [|constructor]);
        first [apply (ps_event P p true)|apply ps_error; discriminate].
    + eexists. eapply fo_cons; [apply ps_panic_at; auto|constructor].
    + eexists. eapply fo_cons; [apply ps_panic_at; auto|constructor].
  - cbn in H1. apply andb_prop in H1 as [He H1]. destruct (IH H1) as (st' & S).
    exists st'. cbn. econstructor; [apply ps_inside; exact He|exact S].
Qed.

Lemma psteps_follows : forall st l' st', follows P st l' st' -> forall l, psteps P l st -> psteps P (l ++ l') st'.
Proof.
  intros st l' st' F. induction F as [st|st e st1 l' st2 S _ IH]; intros l H; [now rewrite app_nil_r|].
  replace (l ++ e :: l') with ((l ++ [e]) ++ l') by now rewrite <- app_assoc.
  apply IH. econstructor; eauto.
Qed.

(** Programs do not flush. *)
Lemma psteps_no_flush : forall l st, psteps P l st -> ~ In XStartFlush l.
Proof.
  intros l st S. induction S as [|l st e st' S IH St]; [intros []|]. intro H.
  apply in_app_or in H as [H|[->|[]]]; [auto|]. inversion St; subst; try discriminate.
  match goal with H : _ \/ _ |- _ => destruct H as [H|H]; discriminate end.
Qed.
Definition flushing (f : fut) : bool := match f with FFlushWrite | FFlushTcp => true | _ => false end.
Lemma run_flushes : forall s m acts x l, xrun T M fuel (XState s m FIdle) acts = (x, l) ->
  flushing (x_f x) = true -> In XStartFlush l.
Proof.
  intros s m acts x l E.
  refine (xrun_ind T M fuel (fun x l => flushing (x_f x) = true -> In XStartFlush l) (XState s m FIdle) _ _ acts x l E).
  - discriminate.
  - intros y k a y' k' IH S Fl. apply in_or_app.
    assert (Same : (y, @nil (xlog M)) = (y', k') -> In XStartFlush k \/ In XStartFlush k').
    { intro H. injection H as <- <-. auto. }
    assert (Sy : forall s m y k, sync T M fuel s m = (y, k) -> flushing (x_f y) = false).
    { clear. intros s m y k E. unfold sync in E. destruct (sync_input T M fuel s m) as [[[s1 m1] l1] r1].
      assert (Fl : forall s2 m2 l2 r, fail T M s2 m2 l2 r = (y, k) -> flushing (x_f y) = false).
      { intros s2 m2 l2 r F. destruct r; injection F as <- _; reflexivity. }
      destruct m1 as [m1|]; [|now injection E as <- _].
      destruct r1 as [r1|]; [eapply Fl; eauto|].
      destruct (m_next M m1) as [[m2 r]|]; [|now injection E as <- _].
      destruct r as [e| |b|e]; try (now injection E as <- _).
      - destruct (sync_output T fuel s1 []) as [s2 [e|]]; [eapply Fl; eauto|]. injection E as <- _.
        cbn. unfold next_await. now destruct (x_wbuf s2).
      - destruct (sync_output T fuel s1 b) as [s2 [e|]]; [eapply Fl; eauto|]. injection E as <- _.
        cbn. unfold next_await. now destruct (x_wbuf s2). }
    destruct a as [| |r|r|ok| |p]; cbn [xstep] in S.
    + destruct (x_f y); try (now apply Same).
      destruct (sync T M fuel _ _) as [y1 k1] eqn:E1. injection S as <- <-. rewrite (Sy _ _ _ _ E1) in Fl. discriminate.
    + destruct (x_f y); try (now apply Same).
      destruct (start_flush T M fuel _ _) as [y1 k1]. injection S as <- <-. right. now left.
    + destruct (reading (x_f y)); [|now apply Same]. destruct r as [[|b r]|]; try (injection S as <- <-; discriminate).
      destruct (sync T M fuel _ _) as [y1 k1] eqn:E1. injection S as <- <-. rewrite (Sy _ _ _ _ E1) in Fl. discriminate.
    + destruct (writing (x_f y)) eqn:W; [|now apply Same]. destruct r as [[|n]|]; try (injection S as <- <-; discriminate).
      destruct (Nat.leb (Datatypes.S n) (length (x_wbuf (x_s y)))); [|now apply Same].
      cbn [x_wbuf] in S. destruct (skipn (Datatypes.S n) (x_wbuf (x_s y))) as [|w wb].
      * destruct (x_f y) eqn:F; try discriminate; try (left; apply IH; reflexivity).
        destruct (sync T M fuel _ _) as [y1 k1] eqn:E1. injection S as <- <-. rewrite (Sy _ _ _ _ E1) in Fl. discriminate.
      * injection S as <- <-. cbn in Fl. left. now apply IH.
    + destruct (x_f y); try (now apply Same). injection S as <- <-. discriminate.
    + destruct (pending (x_f y)); [|now apply Same]. injection S as <- <-. discriminate.
    + destruct (x_f y); try (now apply Same).
      destruct (m_call M (x_m y) p) as [[m1 r]|]; injection S as <- <-; discriminate.
Qed.

Lemma calling_idle : forall s m acts x l p k, xrun T M fuel (XState s m FIdle) acts = (x, l) ->
  x_f x <> FDead -> psteps P l (PIn p k) -> x_f x = FIdle.
Proof.
  intros s m acts x l p k E D S.
  assert (X : reading (x_f x) = true -> False).
  { intro R. destruct (ends_waits M P l _ S (run_ends T M fuel s m acts x l E R)) as (q & Eq). discriminate. }
  assert (Y : flushing (x_f x) = true -> False).
  { intro R. exact (psteps_no_flush _ _ S (run_flushes s m acts x l E R)). }
  destruct (x_f x); try reflexivity; exfalso; try (apply X; reflexivity); try (apply Y; reflexivity). now apply D.
Qed.

(** Calls to come. *)
Definition calling (st : pstate P) : nat := match st with PIn _ _ => 1 | _ => 0 end.

(** Each event causes at most one call, and only events with [busy] cause one. *)
Definition answers_once (busy : m_ev M -> bool) : Prop :=
  (forall p coin e, calling (resume (pr_event P p coin e)) <= if busy e then 1 else 0) /\
  (forall p coin e o k r, pr_event P p coin e = Does o k -> calling (resume (k r)) = 0) /\
  (forall p x o k r, pr_line P p x = Some (Does o k) -> calling (resume (k r)) = 0).

Definition busies (busy : m_ev M -> bool) (l : list (xlog M)) : nat :=
  length (filter (fun e => match e with XRet (RetEvent e) => busy e | _ => false end) l).
Lemma busies_app : forall busy l l', busies busy (l ++ l') = busies busy l + busies busy l'.
Proof. intros. unfold busies. now rewrite filter_app, app_length. Qed.

Definition byself (e : xlog M) : bool := match e with XCall _ _ | XCancel => false | _ => true end.
Lemma rounded_byself : forall l, rounded l -> forallb byself l = true.
Proof.
  intros l (l1 & l2 & -> & H1 & H2). rewrite forallb_app. apply andb_true_intro. split.
  - revert H1. induction l1 as [|e l1 IH]; [reflexivity|]. cbn. intro H. apply andb_prop in H as [He H].
    rewrite (IH H). destruct e; try discriminate; reflexivity.
  - destruct H2 as [->|[(r & ->)|[->| ->]]]; reflexivity.
Qed.

Lemma follow_busy : forall busy, answers_once busy -> forall st l st', follows P st l st' ->
  forallb byself l = true -> calling st' <= calling st + busies busy l.
Proof.
  intros busy [A _] st l st' F. induction F as [st|st e st1 l st2 S F IH]; intro B; [lia|].
  cbn in B. apply andb_prop in B as [Be B]. specialize (IH B).
  enough (calling st1 <= calling st + busies busy [e]).
  { change (e :: l) with ([e] ++ l). rewrite busies_app. lia. }
  destruct S as [p e He|p coin e|p r Hr|p x b Hb|p x q k r Hb|q k r|p e [-> | ->]|q k]; try discriminate; cbn;
    try lia.
  specialize (A p coin e). destruct (busy e); cbn; lia.
Qed.

Lemma call_busy : forall busy, answers_once busy -> forall l st, psteps P l st ->
  forall p k r, st = PIn p k -> calling (resume (k r)) = 0.
Proof.
  intros busy (_ & A1 & A2) l st S. induction S as [|l st e st' S IH S1]; [discriminate|].
  intros p k r E.
  destruct S1 as [q e1 _|q coin e1|q r1 _|q x b Hb|q x q1 k1 r1 Hb|q1 k1 r1|q e1 _|q1 k1]; try discriminate.
  - destruct (pr_event P q coin e1) as [| | |o1 k1] eqn:Ev; try discriminate. injection E as <- <-. eapply A1; exact Ev.
  - destruct b as [| | |o1 k1]; try discriminate. injection E as <- <-. eapply A2; exact Hb.
  - pose proof (A2 _ _ _ _ r1 Hb) as Y. rewrite E in Y. discriminate.
  - pose proof (IH _ _ r1 eq_refl) as Y. rewrite E in Y. discriminate.
Qed.

(** How a program ended shows in the log. *)
Lemma end_log : forall l h, psteps P l (PEnd h) ->
  match h with
  | EndError r => In (XRet r) l /\ forall e, r <> RetEvent e
  | EndPanicked => In XPanic l \/ In XHang l
  | _ => True
  end.
Proof.
  intros l h S. remember (PEnd h) as st eqn:Es. destruct S as [|l st0 e st' S0 S1]; [discriminate|].
  assert (X : forall x, x = e -> In x (l ++ [e])) by (intros x ->; apply in_or_app; right; now left).
  destruct S1 as [p e1 _|p coin e1|p r Hr|p x b Hb|p x q k r Hb|q k r|p e1 He|q k]; try discriminate.
  - destruct (pr_event P p coin e1); try discriminate; injection Es as <-; exact I.
  - injection Es as <-. split; [now apply X|exact Hr].
  - destruct b; try discriminate; injection Es as <-; exact I.
  - destruct (k r); try discriminate; injection Es as <-; exact I.
  - destruct (k r); try discriminate; injection Es as <-; exact I.
  - injection Es as <-. destruct He as [->| ->]; [left|right]; now apply X.
  - injection Es as <-. left. now apply X.
Qed.
End Side.

(** Without TLS, and if the socket works, only the state returns errors. *)
Section Errors.
Context (T : tls) (M : machine) (fuel : nat).
Lemma sync_errors : forall (s : stream T) (m : m_st M) x' l' r, x_tls s = None -> sync T M fuel s m = (x', l') ->
  In (XRet r) l' -> (exists e, r = RetEvent e) \/ (exists e, r = RetState e).
Proof.
  intros s m x' l' r H E Hin. unfold sync in E.
  destruct (sync_input T M fuel s m) as [[[s1 m1] l1] r1] eqn:I. unfold sync_input in I. rewrite H in I.
  assert (Hl : x_tls s1 = None /\ r1 = None /\ ~ In (XRet r) l1).
  { destruct (x_rbuf s); [injection I as <- <- <- <-; repeat split; auto|].
    destruct (m_enqueue M m _); injection I as <- <- <- <-; (split; [auto|split; [auto|intros [X|[]]; discriminate]]). }
  destruct Hl as (H1 & -> & Hl). destruct m1 as [m1|]; [|injection E as _ <-; contradiction].
  destruct (m_next M m1) as [[m2 r2]|].
  2:{ injection E as _ <-. apply in_app_or in Hin as [Hin|[Hin|[]]]; [contradiction|discriminate]. }
  unfold sync_output in E. rewrite H1 in E.
  destruct r2 as [e| |b|e]; injection E as _ <-; repeat (apply in_app_or in Hin as [Hin|Hin]); try contradiction;
    repeat (destruct Hin as [Hin|Hin]); try discriminate; try contradiction; injection Hin as <-; eauto.
Qed.
Lemma step_errors : forall (x : xstate T M) a x' l' r, x_tls (x_s x) = None ->
  working a \/ (exists b bs, a = ARead (Some (b :: bs))) -> xstep T M fuel x a = (x', l') ->
  In (XRet r) l' -> (exists e, r = RetEvent e) \/ (exists e, r = RetState e).
Proof.
  intros x a x' l' r H Ha E Hin.
  destruct Ha as [Ha|(b & bs & ->)]; [destruct a as [| |r0|[[|n]|]|ok| |p]; try contradiction|]; cbn [xstep] in E.
  - destruct (x_f x); try (injection E as _ <-; contradiction).
    destruct (sync T M fuel _ _) as [y k] eqn:E1. injection E as _ <-. destruct Hin as [Hin|Hin]; [discriminate|].
    eapply sync_errors; eauto.
  - destruct (writing (x_f x)); [|injection E as _ <-; contradiction].
    destruct (Nat.leb (S n) (length (x_wbuf (x_s x)))); [|injection E as _ <-; contradiction].
    cbn [x_wbuf] in E. destruct (skipn (S n) (x_wbuf (x_s x))) as [|w wb].
    + destruct (x_f x); try (injection E as _ <-; destruct Hin as [Hin|[]]; discriminate).
      destruct (sync T M fuel _ _) as [y k] eqn:E1. injection E as _ <-. destruct Hin as [Hin|Hin]; [discriminate|].
      refine (sync_errors _ _ _ _ _ _ E1 Hin). exact H.
    + injection E as _ <-. destruct Hin as [Hin|[]]; discriminate.
  - destruct (pending (x_f x)); injection E as _ <-; [destruct Hin as [Hin|[]]; discriminate|contradiction].
  - destruct (x_f x); try (injection E as _ <-; contradiction).
    destruct (m_call M (x_m x) p) as [[m1 r1]|]; injection E as _ <-; destruct Hin as [Hin|[]]; discriminate.
  - destruct (reading (x_f x)); [|injection E as _ <-; contradiction].
    destruct (sync T M fuel _ _) as [y k] eqn:E1. injection E as _ <-. destruct Hin as [Hin|Hin]; [discriminate|].
    refine (sync_errors _ _ _ _ _ _ E1 Hin). exact H.
Qed.
End Errors.

(** ** Both sides *)
Section Two.
Context (K : Codecs) (relaxed : bool) (o : soptions) (gc gs : hgen) (gr : greeting) (T1 T2 : tls) (fuel : nat).
Notation CM := (client_machine K).
Notation SM := (server_machine K).
Hypothesis NT : no_trailing K relaxed.
Hypothesis SL : single_lines K.
Hypothesis ST : sno_trailing K o.
Hypothesis Hmax : (0 < so_max_command_size o)%N.
Context (PC : program CM) (PS : program SM).
Notation works := (works PC PS relaxed o gc gs gr T1 T2 fuel).
Notation moves := (program_moves PC PS T1 T2 fuel).
Notation reached := (reached K relaxed o gc gs gr T1 T2 fuel).

Lemma works_reached : forall z L stc sts, works z L stc sts -> reached z L.
Proof. intros z L stc sts (acts & _ & E & _). now exists acts. Qed.
Lemma works_talk : forall z L stc sts, works z L stc sts -> talk relaxed o gc gs gr T1 T2 z L.
Proof. intros z L stc sts (acts & _ & E & _). eapply talk_plain. exact E. Qed.

Lemma works_step : forall z L stc sts a z' l stc' sts', works z L stc sts -> net_working a ->
  net_step T1 T2 CM SM fuel z a = (z', l) -> follows PC stc (lefts l) stc' -> follows PS sts (rights l) sts' ->
  works z' (L ++ l) stc' sts'.
Proof.
  intros z L stc sts a z' l stc' sts' (acts & W & E & S1 & S2) Ha St F1 F2. exists (acts ++ [a]).
  split; [apply Forall_app; split; [exact W|now constructor]|].
  split; [rewrite net_run_app, E; cbn -[net_step]; rewrite St; now rewrite app_nil_r|].
  rewrite lefts_app, rights_app. split; eapply psteps_follows; eauto.
Qed.

Lemma lefts_NL : forall k, lefts (map (@NL CM SM) k) = k.
Proof. induction k as [|e k IH]; [reflexivity|]. cbn. now rewrite IH. Qed.
Lemma rights_NL : forall k, rights (map (@NL CM SM) k) = [].
Proof. induction k as [|e k IH]; [reflexivity|]. exact IH. Qed.
Lemma lefts_NR : forall k, lefts (map (@NR CM SM) k) = [].
Proof. induction k as [|e k IH]; [reflexivity|]. exact IH. Qed.
Lemma rights_NR : forall k, rights (map (@NR CM SM) k) = k.
Proof. induction k as [|e k IH]; [reflexivity|]. cbn. now rewrite IH. Qed.

Lemma rounded_nil : forall M, rounded M [].
Proof. intro M. exists [], []. auto. Qed.

(** A step is one of a future, or a call. *)
Lemma move_cases : forall z (stc : pstate PC) (sts : pstate PS) a z' l,
  match a with NLeft a => by_itself stc a | NRight a => by_itself sts a | _ => True end ->
  net_step T1 T2 CM SM fuel z a = (z', l) -> l <> [] ->
  (net_moves fuel z' z /\ rounded CM (lefts l) /\ rounded SM (rights l)) \/
  (exists p k, stc = PIn p k /\ ((exists r, l = [NL (XCall p r)]) \/ l = [NL XPanic])) \/
  (exists p k, sts = PIn p k /\ ((exists r, l = [NR (XCall p r)]) \/ l = [NR XPanic])).
Proof.
  intros z stc sts a z' l Ha E Ne.
  assert (Go : net_calm a -> rounded CM (lefts l) -> rounded SM (rights l) ->
    (net_moves fuel z' z /\ rounded CM (lefts l) /\ rounded SM (rights l)) \/
  (exists p k, stc = PIn p k /\ ((exists r, l = [NL (XCall p r)]) \/ l = [NL XPanic])) \/
  (exists p k, sts = PIn p k /\ ((exists r, l = [NR (XCall p r)]) \/ l = [NR XPanic]))).
  { intros C R1 R2. left. split; [|now split]. exists a, l. auto. }
  destruct a as [a|a|n|n]; cbn -[xstep] in E.
  - destruct (conjures a); [injection E as _ <-; now contradiction Ne|].
    destruct (xstep T1 CM fuel (n_l z) a) as [x k] eqn:S. injection E as _ <-.
    rewrite lefts_NL, rights_NL in *.
    destruct a as [| |r0|[[|n]|]|ok| |p]; try contradiction.
    + apply Go; [exact I|eapply step_rounded; [|exact S]; exact I|apply rounded_nil].
    + apply Go; [exact I|eapply step_rounded; [|exact S]; exact I|apply rounded_nil].
    + right. left. destruct Ha as (k0 & ->). exists p, k0. split; [reflexivity|].
      cbn [xstep] in S. destruct (x_f (n_l z)); try (injection S as _ <-; now contradiction Ne).
      destruct (m_call CM (x_m (n_l z)) p) as [[m1 r]|]; injection S as _ <-; [left; now exists r|now right].
  - destruct (conjures a); [injection E as _ <-; now contradiction Ne|].
    destruct (xstep T2 SM fuel (n_r z) a) as [x k] eqn:S. injection E as _ <-.
    rewrite lefts_NR, rights_NR in *.
    destruct a as [| |r0|[[|n]|]|ok| |p]; try contradiction.
    + apply Go; [exact I|apply rounded_nil|eapply step_rounded; [|exact S]; exact I].
    + apply Go; [exact I|apply rounded_nil|eapply step_rounded; [|exact S]; exact I].
    + right. right. destruct Ha as (k0 & ->). exists p, k0. split; [reflexivity|].
      cbn [xstep] in S. destruct (x_f (n_r z)); try (injection S as _ <-; now contradiction Ne).
      destruct (m_call SM (x_m (n_r z)) p) as [[m1 r]|]; injection S as _ <-; [left; now exists r|now right].
  - destruct (firstn n (n_right z)) as [|b bs]; [injection E as _ <-; now contradiction Ne|].
    destruct (reading (x_f (n_r z))); [|injection E as _ <-; now contradiction Ne].
    destruct (xstep T2 SM fuel (n_r z) (ARead (Some (b :: bs)))) as [x k] eqn:S. injection E as _ <-.
    rewrite lefts_NR, rights_NR in *. apply Go; [exact I|apply rounded_nil|eapply step_rounded; [|exact S]; exact I].
  - destruct (firstn n (n_left z)) as [|b bs]; [injection E as _ <-; now contradiction Ne|].
    destruct (reading (x_f (n_l z))); [|injection E as _ <-; now contradiction Ne].
    destruct (xstep T1 CM fuel (n_l z) (ARead (Some (b :: bs)))) as [x k] eqn:S. injection E as _ <-.
    rewrite lefts_NL, rights_NL in *. apply Go; [exact I|eapply step_rounded; [|exact S]; exact I|apply rounded_nil].
Qed.

Lemma by_itself_working : forall M (P : program M) (st : pstate P) a, by_itself st a -> working a.
Proof. intros M P st a. destruct a as [| |r0|[[|n]|]|ok| |p]; cbn; auto; contradiction. Qed.
Lemma follows_nil : forall M (P : program M) st st', follows P st [] st' -> st' = st.
Proof. intros M P st st' F. now inversion F. Qed.

Section Bound.
Context (busyc : m_ev CM -> bool) (busys : m_ev SM -> bool) (Bc Bs : nat) (ok : list (nlog CM SM) -> Prop).
Hypothesis Oc : answers_once CM PC busyc.
Hypothesis Os : answers_once SM PS busys.
Hypothesis Bound : forall z L stc sts, works z L stc sts -> ok L ->
  busies CM busyc (lefts L) <= Bc /\ busies SM busys (rights L) <= Bs.

Lemma called_less : forall M (P : program M) busy l p k (e : xlog M) st', answers_once M P busy ->
  psteps P l (PIn p k) -> (exists r, e = XCall p r) \/ e = XPanic -> follows P (PIn p k) [e] st' ->
  calling M P st' = 0.
Proof.
  intros M P busy l p k e st' A S He F. inversion F as [|st e1 st1 l1 st2 S1 F1]; subst.
  apply follows_nil in F1. subst st'. inversion S1; subst; try reflexivity.
  eapply call_busy; eauto.
Qed.

Definition log_of (w : net T1 T2 CM SM * list (nlog CM SM) * pstate PC * pstate PS) : list (nlog CM SM) :=
  snd (fst (fst w)).
Definition ok_moves w' w : Prop := moves w' w /\ ok (log_of w').

Lemma moves_acc : forall n z, Acc (net_moves fuel) z -> forall L stc sts, works z L stc sts ->
  (Bc - busies CM busyc (lefts L)) + (Bs - busies SM busys (rights L)) + calling CM PC stc + calling SM PS sts <= n ->
  Acc ok_moves (z, L, stc, sts).
Proof.
  intro n. induction n as [n IHn] using (well_founded_induction PeanoNat.Nat.lt_wf_0).
  intros z A. induction A as [z _ IH]. intros L stc sts W Hn.
  constructor. intros [[[z' L'] stc'] sts'] [(a & l & Ha & E & Ne & -> & F1 & F2) Hok]. cbn in Hok.
  assert (Wk : net_working a).
  { destruct a as [a|a|k|k]; try exact I; eapply by_itself_working; exact Ha. }
  pose proof (works_step _ _ _ _ _ _ _ _ _ W Wk E F1 F2) as W'.
  destruct (Bound _ _ _ _ W' Hok) as [B1' B2'].
  rewrite lefts_app, busies_app in B1'. rewrite rights_app, busies_app in B2'.
  destruct (move_cases _ _ _ _ _ _ Ha E Ne) as [(Mv & R1 & R2)|[(p & k & -> & Hl)|(p & k & -> & Hl)]].
  - apply (IH z' Mv (L ++ l) stc' sts' W').
    pose proof (follow_busy CM PC busyc Oc _ _ _ F1 (rounded_byself CM _ R1)) as C1.
    pose proof (follow_busy SM PS busys Os _ _ _ F2 (rounded_byself SM _ R2)) as C2.
    rewrite lefts_app, busies_app, rights_app, busies_app. lia.
  - assert (Hc : calling CM PC stc' = 0 /\ sts' = sts /\ busies CM busyc (lefts l) = 0 /\ busies SM busys (rights l) = 0).
    { destruct W as (acts & _ & _ & S1 & _). destruct Hl as [(r & ->)| ->]; cbn in F1, F2; apply follows_nil in F2;
        (split; [eapply called_less; [exact Oc|exact S1| |exact F1]; eauto|auto]). }
    destruct Hc as (C1 & -> & Z1 & Z2). cbn in Hn.
    eapply (IHn (n - 1)); [lia|eapply reached_acc; eauto; eapply works_reached; exact W'|exact W'|].
    rewrite lefts_app, busies_app, rights_app, busies_app. lia.
  - assert (Hc : calling SM PS sts' = 0 /\ stc' = stc /\ busies CM busyc (lefts l) = 0 /\ busies SM busys (rights l) = 0).
    { destruct W as (acts & _ & _ & _ & S2). destruct Hl as [(r & ->)| ->]; cbn in F1, F2; apply follows_nil in F1;
        (split; [eapply called_less; [exact Os|exact S2| |exact F2]; eauto|auto]). }
    destruct Hc as (C1 & -> & Z1 & Z2). cbn in Hn.
    eapply (IHn (n - 1)); [lia|eapply reached_acc; eauto; eapply works_reached; exact W'|exact W'|].
    rewrite lefts_app, busies_app, rights_app, busies_app. lia.
Qed.

Lemma works_acc : forall z L stc sts, works z L stc sts -> Acc ok_moves (z, L, stc, sts).
Proof.
  intros z L stc sts W. eapply moves_acc; [eapply reached_acc; eauto; eapply works_reached; exact W|exact W|apply le_n].
Qed.
End Bound.

(** As long as no program has ended, and not at rest, something happens. *)
Definition going {M} {P : program M} (st : pstate P) : Prop := forall h, st <> PEnd h.

Lemma works_moves : forall z L stc sts, works z L stc sts -> going stc -> going sts ->
  at_rest z \/ exists w, moves w (z, L, stc, sts).
Proof.
  intros z L stc sts W G1 G2. pose proof (works_reached _ _ _ _ W) as R.
  pose proof (reached_good K relaxed o gc gs gr T1 T2 fuel NT SL ST z L R) as Gd.
  pose proof W as (acts & Wk & E & S1 & S2).
  destruct (net_projects _ _ _ _ _ _ _ _ _ _ _ _ E) as [(a1 & X1) (a2 & X2)].
  destruct stc as [pc|p k|h]; [|right|exfalso; now apply (G1 h)].
  2:{ pose proof (calling_idle T1 CM fuel PC _ _ _ _ _ _ _ X1 (gd_d1 _ _ _ _ Gd) S1) as F.
      destruct (m_call CM (x_m (n_l z)) p) as [[m1 r]|] eqn:C.
      - eexists (_, _, _, _). exists (NLeft (ACall p)). eexists.
        split; [exists k; reflexivity|]. cbn -[m_call]. rewrite F, C. split; [reflexivity|]. split; [discriminate|]. split; [reflexivity|].
        split; [eapply fo_cons; [apply ps_call|constructor]|constructor].
      - eexists (_, _, _, _). exists (NLeft (ACall p)). eexists.
        split; [exists k; reflexivity|]. cbn -[m_call]. rewrite F, C. split; [reflexivity|]. split; [discriminate|]. split; [reflexivity|].
        split; [eapply fo_cons; [apply ps_panic_in|constructor]|constructor]. }
  destruct sts as [ps|p k|h]; [|right|exfalso; now apply (G2 h)].
  2:{ pose proof (calling_idle T2 SM fuel PS _ _ _ _ _ _ _ X2 (gd_d2 _ _ _ _ Gd) S2) as F.
      destruct (m_call SM (x_m (n_r z)) p) as [[m1 r]|] eqn:C.
      - eexists (_, _, _, _). exists (NRight (ACall p)). eexists.
        split; [exists k; reflexivity|]. cbn -[m_call]. rewrite F, C. split; [reflexivity|]. split; [discriminate|]. split; [reflexivity|].
        split; [constructor|eapply fo_cons; [apply ps_call|constructor]].
      - eexists (_, _, _, _). exists (NRight (ACall p)). eexists.
        split; [exists k; reflexivity|]. cbn -[m_call]. rewrite F, C. split; [reflexivity|]. split; [discriminate|]. split; [reflexivity|].
        split; [constructor|eapply fo_cons; [apply ps_panic_in|constructor]]. }
  destruct (rest_or_moves K relaxed o gc gs gr T1 T2 fuel NT SL ST z L R) as [Rest|(z' & a & l & Ca & St & Ne)]; [now left|].
  right.
  assert (By : match a with NLeft a => by_itself (@PAt CM PC pc) a | NRight a => by_itself (@PAt SM PS ps) a | _ => True end).
  { destruct a as [a|a|n|n]; try exact I; cbn in Ca.
    - destruct a as [| |r0|[[|n]|]|[|]| |p]; try contradiction; try exact I. exfalso.
      cbn in St. destruct (x_f (n_l z)) eqn:F; try (injection St as _ <-; now apply Ne).
      apply (psteps_no_flush CM PC _ _ S1). eapply (run_flushes T1 CM fuel); [exact X1|now rewrite F].
    - destruct a as [| |r0|[[|n]|]|[|]| |p]; try contradiction; try exact I. exfalso.
      cbn in St. destruct (x_f (n_r z)) eqn:F; try (injection St as _ <-; now apply Ne).
      apply (psteps_no_flush SM PS _ _ S2). eapply (run_flushes T2 SM fuel); [exact X2|now rewrite F]. }
  destruct (move_cases _ _ _ _ _ _ By St Ne) as [(_ & R1 & R2)|[(p & k & X & _)|(p & k & X & _)]]; try discriminate.
  destruct (follow_at CM PC _ pc R1) as (stc' & F1). destruct (follow_at SM PS _ ps R2) as (sts' & F2).
  exists (z', L ++ l, stc', sts'). exists a, l. auto 8.
Qed.

(** No errors of the sockets. *)
Lemma works_errors : forall z L stc sts, works z L stc sts ->
  (forall r, In (XRet r) (lefts L) -> (exists e, r = RetEvent e) \/ (exists e, r = RetState e)) /\
  (forall r, In (XRet r) (rights L) -> (exists e, r = RetEvent e) \/ (exists e, r = RetState e)).
Proof.
  intros z L stc sts (acts & W & E & _ & _). revert z L E.
  induction acts as [|a acts IH] using rev_ind; intros z L E; [injection E as <- <-; split; intros r []|].
  apply Forall_app in W as [W Wa]. apply Forall_inv in Wa. rewrite net_run_app in E.
  destruct (net_run T1 T2 CM SM fuel _ acts) as [z1 L1] eqn:E1. cbn -[net_step] in E.
  destruct (net_step T1 T2 CM SM fuel z1 a) as [z2 l] eqn:St. rewrite app_nil_r in E. injection E as <- <-.
  destruct (IH W _ _ eq_refl) as [H1 H2].
  pose proof (reached_good K relaxed o gc gs gr T1 T2 fuel NT SL ST z1 L1 (ex_intro _ acts E1)) as Gd.
  rewrite lefts_app, rights_app.
  enough (Y : (forall r, In (XRet r) (lefts l) -> (exists e, r = RetEvent e) \/ (exists e, r = RetState e)) /\
    (forall r, In (XRet r) (rights l) -> (exists e, r = RetEvent e) \/ (exists e, r = RetState e))).
  { destruct Y as [Y1 Y2]. split; intros r Hr; apply in_app_or in Hr as [Hr|Hr]; auto. }
  destruct a as [a|a|n|n]; cbn -[xstep] in St.
  - destruct (conjures a); [injection St as _ <-; split; intros r []|].
    destruct (xstep T1 CM fuel (n_l z1) a) as [x k] eqn:S. injection St as _ <-. rewrite lefts_NL, rights_NL.
    split; [|intros r []]. intros r Hr. eapply step_errors; [exact (gd_t1 _ _ _ _ Gd)|left; exact Wa|exact S|exact Hr].
  - destruct (conjures a); [injection St as _ <-; split; intros r []|].
    destruct (xstep T2 SM fuel (n_r z1) a) as [x k] eqn:S. injection St as _ <-. rewrite lefts_NR, rights_NR.
    split; [intros r []|]. intros r Hr. eapply step_errors; [exact (gd_t2 _ _ _ _ Gd)|left; exact Wa|exact S|exact Hr].
  - destruct (firstn n (n_right z1)) as [|b bs]; [injection St as _ <-; split; intros r []|].
    destruct (reading (x_f (n_r z1))); [|injection St as _ <-; split; intros r []].
    destruct (xstep T2 SM fuel (n_r z1) (ARead (Some (b :: bs)))) as [x k] eqn:S. injection St as _ <-. rewrite lefts_NR, rights_NR.
    split; [intros r []|]. intros r Hr. eapply step_errors; [exact (gd_t2 _ _ _ _ Gd)|right; eauto|exact S|exact Hr].
  - destruct (firstn n (n_left z1)) as [|b bs]; [injection St as _ <-; split; intros r []|].
    destruct (reading (x_f (n_l z1))); [|injection St as _ <-; split; intros r []].
    destruct (xstep T1 CM fuel (n_l z1) (ARead (Some (b :: bs)))) as [x k] eqn:S. injection St as _ <-. rewrite lefts_NL, rights_NL.
    split; [|intros r []]. intros r Hr. eapply step_errors; [exact (gd_t1 _ _ _ _ Gd)|right; eauto|exact S|exact Hr].
Qed.

(** The library does not panic. *)
Lemma works_alive : forall z L stc sts, works z L stc sts ->
  (~ In XPanic (lefts L) /\ ~ In XHang (lefts L)) /\ (~ In XPanic (rights L) /\ ~ In XHang (rights L)).
Proof.
  intros z L stc sts (acts & _ & E & _ & _).
  destruct (net_projects _ _ _ _ _ _ _ _ _ _ _ _ E) as [(a1 & X1) (a2 & X2)].
  split; split.
  - eapply stream_no_panic; [|exact X1]. intro cs. now apply client_calls_live.
  - exact (proj1 (plain_alive _ _ _ _ _ _ _ X1)).
  - eapply stream_no_panic; [|exact X2]. intro cs. now apply server_calls_live.
  - exact (proj1 (plain_alive _ _ _ _ _ _ _ X2)).
Qed.

Lemma client_going : forall z L stc sts, works z L stc sts ->
  orderly K relaxed o gr (app_log L) -> own_roundtrips K relaxed o (app_log L) ->
  stc <> PEnd EndReturned -> stc <> PEnd EndFailed -> going stc.
Proof.
  intros z L stc sts W Ord Own N1 N2 h ->. pose proof W as (acts & _ & E & S1 & _).
  pose proof (end_log CM PC _ _ S1) as H. destruct (works_alive _ _ _ _ W) as [[A1 A2] _].
  destruct h as [| |r|]; [now apply N1|now apply N2| |now destruct H].
  destruct H as [Hin Hr]. destruct (works_errors _ _ _ _ W) as [We _].
  destruct (We r Hin) as [(e & ->)|(e & ->)]; [now apply (Hr e)|].
  apply (RelayEnd.net_client_clean K relaxed o gc gs gr T1 T2 z L (works_talk _ _ _ _ W) Ord Own e).
  rewrite clogs_app_log. apply in_flat_map. eexists. split; [exact Hin|now left].
Qed.
Lemma server_going : forall z L stc sts cmd, works z L stc sts ->
  orderly K relaxed o gr (app_log L) -> own_roundtrips K relaxed o (app_log L) ->
  (enqueued (clogs (app_log L)) = [] \/ exists h, enqueued (clogs (app_log L)) = [(h, cmd)]) ->
  lits_fit o (enc_command K cmd) -> sts <> PEnd EndReturned -> sts <> PEnd EndFailed -> going sts.
Proof.
  intros z L stc sts cmd W Ord Own Only Fit N1 N2 h ->. pose proof W as (acts & _ & E & _ & S2).
  pose proof (end_log SM PS _ _ S2) as H. destruct (works_alive _ _ _ _ W) as [_ [A1 A2]].
  destruct h as [| |r|]; [now apply N1|now apply N2| |now destruct H].
  destruct H as [Hin Hr]. destruct (works_errors _ _ _ _ W) as [_ We].
  destruct (We r Hin) as [(e & ->)|(e & ->)]; [now apply (Hr e)|].
  destruct (net_delivered K relaxed o gc gs gr T1 T2 z L (works_talk _ _ _ _ W) Ord Own) as (rd & rest & _ & Hs).
  { intros h c Hc. destruct Only as [En|(h0 & En)]; rewrite En in Hc; [contradiction|]. destruct Hc as [Hc|[]]. now injection Hc as _ <-. }
  assert (Hi : In (IError (e : serror)) (sreports (slogs (app_log L)))).
  { apply report_in. split; [|reflexivity].
    rewrite slogs_app_log. apply in_flat_map. eexists. split; [exact Hin|now left]. }
  rewrite Hs in Hi. apply in_map_iff in Hi as (q & Hq & _). discriminate.
Qed.
End Two.

(** ** Counting *)
Section Counts.
Context (K : Codecs) (relaxed : bool) (o : soptions) (gc gs : hgen) (gr : greeting) (T1 T2 : tls).
Notation CM := (client_machine K).
Notation SM := (server_machine K).

Lemma busies_client : forall (busy : cevent -> bool) (L : list (nlog CM SM)),
  busies CM busy (lefts L) <= length (filter busy (events (clogs (app_log L)))).
Proof.
  intros busy L. rewrite clogs_app_log. generalize (lefts L). intro l. unfold busies.
  induction l as [|e l IH]; [apply le_n|]. cbn [flat_map]. rewrite events_app, filter_app, app_length.
  cbn [filter]. destruct e as [| | | | | | |[e|e| | | |]| | |]; try (cbn in *; lia).
  cbn in *. destruct (busy e); cbn; lia.
Qed.
Lemma busies_server : forall (busy : sevent -> bool) (L : list (nlog CM SM)),
  (forall e, busy e = true -> is_report (IEvent e) = true) ->
  busies SM busy (rights L) <= length (filter (fun r => match r with IEvent e => busy e | _ => false end)
    (sreports (slogs (app_log L)))).
Proof.
  intros busy L Hb. rewrite slogs_app_log. generalize (rights L). intro l. unfold busies.
  induction l as [|e l IH]; [apply le_n|]. cbn [flat_map]. unfold sreports in *. rewrite ServerInv.sresults_app, !filter_app, app_length.
  cbn [filter]. destruct e as [| | | | | | |[e|e| | | |]| | |];
    try (eapply PeanoNat.Nat.le_trans; [exact IH|apply PeanoNat.Nat.le_add_l]).
  destruct (busy e) eqn:E; [|eapply PeanoNat.Nat.le_trans; [exact IH|apply PeanoNat.Nat.le_add_l]]. pose proof (Hb e E) as Hr. cbn in Hr |- *. rewrite Hr. cbn. rewrite E. cbn. apply le_n_S. exact IH.
Qed.

Context (z : net T1 T2 CM SM) (L : list (nlog CM SM)) (cmd : command).
Notation A := (clogs (app_log L)).
Notation S := (slogs (app_log L)).
Hypothesis Talk : talk relaxed o gc gs gr T1 T2 z L.
Hypothesis Ord : orderly K relaxed o gr (app_log L).
Hypothesis Own : own_roundtrips K relaxed o (app_log L).
Hypothesis Only : enqueued A = [] \/ exists h, enqueued A = [(h, cmd)].
Hypothesis Fit : lits_fit o (enc_command K cmd).

Lemma one_greeting : length (greetings (events A)) <= 1.
Proof.
  destruct (net_greeted K relaxed o gc gs gr T1 T2 z L Talk Ord Own) as (rest & E).
  apply (f_equal (@length _)) in E. rewrite app_length in E. cbn in E. lia.
Qed.

Lemma few_reports : exists rd rest, requests A = rd ++ rest /\
  sreports S = map (fun q => IEvent (request_event q)) rd.
Proof.
  apply (net_delivered K relaxed o gc gs gr T1 T2 z L Talk Ord Own). intros h c Hc.
  destruct Only as [En|(h0 & En)]; rewrite En in Hc; [contradiction|]. destruct Hc as [Hc|[]]. now injection Hc as _ <-.
Qed.

Lemma few_requests : requests A = [] \/ exists h, enqueued A = [(h, cmd)] /\
  requests A = RqCommand cmd :: SpecSystem.answers (exchange (segment 0 A)).
Proof.
  destruct (talk_client _ _ _ _ _ _ _ _ _ _ Talk) as (f & s & acts & x & R1).
  destruct (c_stream_reached _ _ _ _ _ _ _ _ _ _ R1) as [Rc _]. rewrite <- clogs_app_log in Rc.
  destruct Only as [En|(h & En)].
  - left. unfold requests. generalize (seq 0 (Datatypes.S (length (terminals A)))). intro ks.
    induction ks as [|k ks IH]; [reflexivity|]. cbn. rewrite IH, app_nil_r. unfold segment_requests. rewrite En.
    now destruct k.
  - right. exists h. split; [exact En|]. eapply one_request; [exact En|]. eapply few_terminals; eauto.
Qed.

(** Of what was enqueued and sent, the client has been told at most that. *)
Lemma few_responses : length (reported_all (events A)) <= length (given (rights L)).
Proof.
  destruct (net_exchange K relaxed o gc gs gr T1 T2 z L Talk Ord Own) as (took & rd & rest & Hq & _ & _ & ys & more & Hi & Hy).
  assert (X : flat_map (rejection K o) rd = []).
  { assert (Y : flat_map (rejection K o) (requests A) = []) by (eapply no_rejections; eauto).
    rewrite Hq, flat_map_app in Y. now apply app_eq_nil in Y. }
  rewrite X in Hi. apply interleaved_left in Hi. rewrite Hi in Hy.
  rewrite Hy, app_length. lia.
Qed.

Lemma asks_reported : asks A <= length (reported_all (events A)).
Proof.
  unfold asks, reported_all. generalize (events A). intro es. induction es as [|e es IH]; [apply le_n|].
  cbn. destruct e; cbn in *; lia.
Qed.
End Counts.

Lemma filter_le : forall {A} f (l : list A), length (filter f l) <= length l.
Proof. intros A f l. induction l as [|x l IH]; [apply le_n|]. cbn. destruct (f x); cbn; lia. Qed.
Lemma acc_incl : forall {A} (R1 R2 : A -> A -> Prop), (forall x y, R1 x y -> R2 x y) -> forall x, Acc R2 x -> Acc R1 x.
Proof. intros A R1 R2 H x Ac. induction Ac as [x _ IH]. constructor. intros y Hy. apply IH. now apply H. Qed.

(** ** client.rs and server.rs *)
Section Instances.
Context (K : Codecs) (relaxed : bool) (o : soptions) (gc gs : hgen) (gr : greeting) (T1 T2 : tls) (fuel : nat).
Notation CM := (client_machine K).
Notation SM := (server_machine K).
Hypothesis NT : no_trailing K relaxed.
Hypothesis SL : single_lines K.
Hypothesis ST : sno_trailing K o.
Hypothesis Hmax : (0 < so_max_command_size o)%N.

Definition is_greeting (e : cevent) : bool := match e with CeGreetingReceived _ => true | _ => false end.
Lemma greeting_bound : forall es, length (filter is_greeting es) = length (greetings es).
Proof. induction es as [|e es IH]; [reflexivity|]. destruct e; cbn in *; now rewrite ?IH. Qed.

Definition is_regular (e : sevent) : bool := match e with SeCommandReceived _ => true | _ => false end.

Section LoginLive.
Context (login : bytes).
Notation PC := (client_rs K login).
Notation PS := (server_rs K).
Notation cmd := (client_command login).
Hypothesis Ag : agreed K relaxed o gr cmd [no_to cmd] [].
Hypothesis Fit : lits_fit o (enc_command K cmd).
Notation works := (works PC PS relaxed o gc gs gr T1 T2 fuel).

Lemma login_pair : forall z L stc sts, works z L stc sts -> talk relaxed o gc gs gr T1 T2 z L /\ pair K PC PS L.
Proof.
  intros z L stc sts W. split; [eapply works_talk; exact W|].
  destruct W as (acts & _ & _ & S1 & S2). split; eexists; eassumption.
Qed.
Lemma login_ord : forall z L stc sts, works z L stc sts -> talk relaxed o gc gs gr T1 T2 z L /\
  orderly K relaxed o gr (app_log L) /\ own_roundtrips K relaxed o (app_log L) /\
  (enqueued (clogs (app_log L)) = [] \/ exists h, enqueued (clogs (app_log L)) = [(h, cmd)]).
Proof.
  intros z L stc sts W. destruct (login_pair _ _ _ _ W) as [Tk Pr]. split; [exact Tk|].
  destruct (pair_orderly K relaxed o gc gs gr T1 T2 PC PS cmd _ _ Ag (login_fine _ _ _ _ _ _ _ _ login)
    (login_nice _ _ _ _ _ _ _ _ login) (login_says _ _ _ _ _ _ _ _ login) z L Tk Pr) as [Ord Own].
  split; [exact Ord|]. split; [exact Own|]. exact (proj1 (login_fine _ _ _ _ _ _ _ _ login z L Tk Pr)).
Qed.

Lemma login_bound : forall z L stc sts, works z L stc sts -> True ->
  busies CM is_greeting (lefts L) <= 1 /\ busies SM is_regular (rights L) <= 1.
Proof.
  intros z L stc sts W _. destruct (login_ord _ _ _ _ W) as (Tk & Ord & Own & Only). split.
  - eapply PeanoNat.Nat.le_trans; [apply busies_client|]. rewrite greeting_bound. eapply one_greeting; eauto.
  - eapply PeanoNat.Nat.le_trans; [apply busies_server; now intros []|].
    destruct (few_reports _ _ _ _ _ _ _ _ _ _ _ Tk Ord Own Only Fit) as (rd & rest & Hq & ->).
    assert (X : forall xs, length (filter (fun r => match r with IEvent e => is_regular e | _ => false end)
      (map (fun q => IEvent (request_event q)) (SpecSystem.answers xs) : list s_ires)) = 0).
    { induction xs as [|y xs IH]; [reflexivity|]. destruct y; exact IH. }
    enough (Y : length (filter (fun r => match r with IEvent e => is_regular e | _ => false end)
      (map (fun q => IEvent (request_event q)) (requests (clogs (app_log L))) : list s_ires)) <= 1).
    { rewrite Hq, map_app, filter_app, app_length in Y. lia. }
    destruct (few_requests _ _ _ _ _ _ _ _ _ _ _ Tk Only) as [->|(h & _ & ->)]; [cbn; lia|].
    cbn [map filter]. specialize (X (exchange (segment 0 (clogs (app_log L))))).
    destruct (is_regular _); cbn [length]; lia.
Qed.

Lemma login_lives : forall z L stc sts, works z L stc sts ->
  going stc /\ going sts /\
  Acc (program_moves PC PS T1 T2 fuel) (z, L, stc, sts) /\
  (at_rest z \/ exists w, program_moves PC PS T1 T2 fuel w (z, L, stc, sts)).
Proof.
  intros z L stc sts W. destruct (login_ord _ _ _ _ W) as (Tk & Ord & Own & Only).
  destruct (talk_client _ _ _ _ _ _ _ _ _ _ Tk) as (f & s & acts & x & R1).
  destruct (talk_server _ _ _ _ _ _ _ _ _ _ Tk) as (f2 & s2 & acts2 & x2 & R2).
  pose proof W as (_ & _ & _ & S1 & S2).
  destruct (client_rs_inv K login _ _ _ _ _ _ _ _ _ _ R1 S1) as [J1 _].
  destruct (server_rs_inv K _ _ _ _ _ _ _ _ _ _ _ R2 S2) as [J2 _].
  assert (G1 : going stc) by (eapply client_going; eauto; intros ->; exact J1).
  assert (G2 : going sts) by (eapply server_going; eauto; intros ->; exact J2).
  split; [exact G1|]. split; [exact G2|]. split; [|eapply works_moves; eauto].
  assert (X : Acc (ok_moves K T1 T2 fuel PC PS (fun _ => True)) (z, L, stc, sts)).
  { eapply works_acc with (busyc := is_greeting) (busys := is_regular) (Bc := 1) (Bs := 1); eauto.
    - repeat split; try discriminate.
      + intros [|h] coin e; destruct e; cbn -[handle_eqb]; try lia; unfold assert_same in *; destruct (handle_eqb _ _); cbn; lia.
      + intros [|h] coin e p k r E; destruct e; try discriminate; cbn -[handle_eqb] in E;
          try (injection E as <- <-; destruct r; reflexivity);
          unfold assert_same in *; destruct (handle_eqb _ _); discriminate.
    - repeat split; try discriminate.
      + intros [|hs] coin e; destruct e; cbn -[handle_eqb]; try lia. destruct hs; cbn -[handle_eqb]; [lia|]. unfold assert_same in *; destruct (handle_eqb _ _); cbn; lia.
      + intros [|hs] coin e p k r E; destruct e; try discriminate; cbn -[handle_eqb] in E;
          try (injection E as <- <-; destruct r; reflexivity).
        destruct hs; [discriminate|]. unfold assert_same in *; destruct (handle_eqb _ _); discriminate.
    - exact login_bound. }
  revert X. apply acc_incl. intros w' w H. now split.
Qed.
End LoginLive.

(** ** client_idle.rs and server_idle.rs *)
Definition is_done (e : sevent) : bool := match e with SeIdleDoneReceived => true | _ => false end.

Lemma idle_answers : forall h bs xs n, conversing K h idle_command bs xs n -> length (SpecSystem.answers xs) <= 1.
Proof.
  intros h bs xs n Cv.
  inversion Cv as [ |? ? Hrg|? ? ? Hrg|ca line Hca| ca line ? ? ? ? Hca|line ? Hi _ Hx|line q dn Hi]; subst; cbn; try lia;
    try (destruct ca; discriminate).
  destruct Hx as [->|[->|[(q & ->)|(q & ->)]]]; cbn; lia.
Qed.

Lemma idle_answered : forall h bs xs n t, conversation K h idle_command bs xs n t -> length (SpecSystem.answers xs) <= 1.
Proof.
  intros h bs xs n t Cv.
  inversion Cv as [|? ? ? ? Hrg|ca line ? ? ? ? ? Hca|line tl st Hi _ Hx|line q dn Hi]; subst; cbn; try lia;
    try (destruct ca; discriminate).
  destruct Hx as [->|(q & ->)]; cbn; lia.
Qed.

Section IdleLive.
Context (expunge : bytes).
Notation PC := (client_idle_rs K).
Notation PS := (server_idle_rs K expunge).
Notation cmd := idle_command.
Hypothesis Ag : agreed K relaxed o gr cmd (idle_texts expunge) [].
Hypothesis Fit : lits_fit o (enc_command K cmd).
Notation works := (works PC PS relaxed o gc gs gr T1 T2 fuel).

Lemma idle_ord : forall z L stc sts, works z L stc sts -> talk relaxed o gc gs gr T1 T2 z L /\
  orderly K relaxed o gr (app_log L) /\ own_roundtrips K relaxed o (app_log L) /\
  (enqueued (clogs (app_log L)) = [] \/ exists h, enqueued (clogs (app_log L)) = [(h, cmd)]).
Proof.
  intros z L stc sts W. pose proof (works_talk _ _ _ _ _ _ _ _ _ _ _ _ _ _ _ W) as Tk. split; [exact Tk|].
  assert (Pr : pair K PC PS L) by (destruct W as (acts & _ & _ & S1 & S2); split; eexists; eassumption).
  destruct (pair_orderly K relaxed o gc gs gr T1 T2 PC PS cmd _ _ Ag (idle_fine _ _ _ _ _ _ _ _ expunge)
    (idle_nice _ _ _ _ _ _ _ _ expunge) (idle_says _ _ _ _ _ _ _ _ expunge) z L Tk Pr) as [Ord Own].
  split; [exact Ord|]. split; [exact Own|]. exact (proj1 (idle_fine _ _ _ _ _ _ _ _ expunge z L Tk Pr)).
Qed.

Lemma idle_bound : forall z L stc sts, works z L stc sts -> True ->
  busies CM is_greeting (lefts L) <= 1 /\ busies SM is_done (rights L) <= 2.
Proof.
  intros z L stc sts W _. destruct (idle_ord _ _ _ _ W) as (Tk & Ord & Own & Only). split.
  - eapply PeanoNat.Nat.le_trans; [apply busies_client|]. rewrite greeting_bound. eapply one_greeting; eauto.
  - eapply PeanoNat.Nat.le_trans; [apply busies_server; now intros []|].
    destruct (few_reports _ _ _ _ _ _ _ _ _ _ _ Tk Ord Own Only Fit) as (rd & rest & Hq & ->).
    eapply PeanoNat.Nat.le_trans; [apply filter_le|]. rewrite map_length.
    enough (Y : length (requests (clogs (app_log L))) <= 2) by (rewrite Hq, app_length in Y; lia).
    destruct (few_requests _ _ _ _ _ _ _ _ _ _ _ Tk Only) as [->|(h & En & ->)]; [cbn; lia|]. cbn. apply le_n_S.
    destruct (talk_client _ _ _ _ _ _ _ _ _ _ Tk) as (f & s & acts & x & R1).
    destruct (c_stream_reached _ _ _ _ _ _ _ _ _ _ R1) as [Rc _]. rewrite <- clogs_app_log in Rc.
    destruct (terminals (clogs (app_log L))) as [|e te] eqn:Te.
    + pose proof (r_current K relaxed gc _ Rc) as Cu. unfold current, cur_seg in Cu. rewrite Te, En in Cu. cbn in Cu.
      destruct Cu as (bs & m & Cv). exact (idle_answers _ _ _ _ Cv).
    + destruct (r_done K relaxed gc _ Rc 0 e) as (h1 & c1 & E1 & bs & m & Cv); [now rewrite Te|].
      rewrite En in E1. injection E1 as <- <-.
      exact (idle_answered _ _ _ _ _ Cv).
Qed.

Lemma idle_lives : forall z L stc sts, works z L stc sts ->
  (stc = PEnd EndReturned \/ going stc) /\ going sts /\
  Acc (program_moves PC PS T1 T2 fuel) (z, L, stc, sts) /\
  (stc = PEnd EndReturned \/ at_rest z \/ exists w, program_moves PC PS T1 T2 fuel w (z, L, stc, sts)).
Proof.
  intros z L stc sts W. destruct (idle_ord _ _ _ _ W) as (Tk & Ord & Own & Only).
  destruct (talk_client _ _ _ _ _ _ _ _ _ _ Tk) as (f & s & acts & x & R1).
  destruct (talk_server _ _ _ _ _ _ _ _ _ _ Tk) as (f2 & s2 & acts2 & x2 & R2).
  pose proof W as (_ & _ & _ & S1 & S2).
  destruct (client_idle_rs_inv K _ _ _ _ _ _ _ _ _ _ R1 S1) as [J1 _].
  destruct (server_idle_rs_inv K _ _ _ _ _ _ _ _ _ _ _ _ R2 S2) as [J2 _].
  assert (G1 : stc = PEnd EndReturned \/ going stc).
  { assert (X : stc = PEnd EndReturned \/ stc <> PEnd EndReturned)
      by (destruct stc as [|p k|[| |r|]]; try (now left); right; discriminate).
    destruct X as [X|X]; [now left|right]. eapply client_going; eauto; intros ->; exact J1. }
  assert (G2 : going sts) by (eapply server_going; eauto; intros ->; exact J2).
  split; [exact G1|]. split; [exact G2|]. split; [|destruct G1 as [G1|G1]; [now left|right; eapply works_moves; eauto]].
  assert (X : Acc (ok_moves K T1 T2 fuel PC PS (fun _ => True)) (z, L, stc, sts)).
  { eapply works_acc with (busyc := is_greeting) (busys := is_done) (Bc := 1) (Bs := 2); eauto.
    - repeat split.
      + intros [| |] coin e; destruct e; cbn -[bytes_eqb]; try lia.
        match goal with s : status |- _ => destruct s end; cbn -[bytes_eqb]; try lia. destruct (bytes_eqb _ _); cbn; lia.
      + intros [| |] coin e p k r E; destruct e; try discriminate; cbn -[bytes_eqb] in E;
          try (injection E as <- <-; destruct r; reflexivity).
        match goal with s : status |- _ => destruct s end; try discriminate. destruct (bytes_eqb _ _); discriminate.
      + intros [| |] y p k r E; try discriminate. cbn in E. injection E as <- <-. destruct r; reflexivity.
    - repeat split.
      + intros [|cur] coin e; destruct e; cbn; try lia. destruct cur; cbn; lia.
      + intros [|cur] coin e p k r E; destruct e; try discriminate; cbn in E.
        destruct cur; [|discriminate]. injection E as <- <-. destruct r; reflexivity.
      + intros [|cur] y p k r E; try discriminate. cbn -[bytes_eqb lit] in E. injection E as E.
        destruct (bytes_eqb y (lit "ok")); [injection E as <- <-; destruct r; reflexivity|].
        destruct (bytes_eqb y (lit "no")); [destruct cur; [injection E as <- <-; destruct r; reflexivity|discriminate]|].
        destruct (bytes_eqb y (lit "expunge")); [injection E as <- <-; destruct r; reflexivity|discriminate].
    - exact idle_bound. }
  revert X. apply acc_incl. intros w' w H. now split.
Qed.
End IdleLive.

(** ** client_authenticate.rs and server_authenticate.rs *)
Definition is_turn (e : cevent) : bool :=
  match e with CeGreetingReceived _ | CeAuthenticateContinuationRequestReceived _ _ => true | _ => false end.
Lemma turn_bound : forall es, length (filter is_turn es) = length (greetings es) +
  length (filter (fun e => match e with CeAuthenticateContinuationRequestReceived _ _ => true | _ => false end) es).
Proof. induction es as [|e es IH]; [reflexivity|]. unfold greetings in *. destruct e; cbn; rewrite ?IH; lia. Qed.

Lemma asks_app' : forall A B, asks (A ++ B) = asks A + asks B.
Proof. intros. unfold asks. now rewrite events_app, filter_app, app_length. Qed.

Lemma segment_le : forall A, length (SpecSystem.answers (exchange (segment 0 A))) <= length (SpecSystem.answers (exchange A)).
Proof.
  induction A as [|e A IH]; [apply le_n|]. cbn [segment]. 
  change (e :: A) with ([e] ++ A). destruct (ends_segment e).
  - rewrite exchange_app, SystemLog.answers_app, app_length. lia.
  - change (e :: segment 0 A) with ([e] ++ segment 0 A). rewrite !exchange_app, !SystemLog.answers_app, !app_length. lia.
Qed.

Section AuthLive.
Context (t : tag).
Notation PC := (client_authenticate_rs K t).
Notation PS := (server_authenticate_rs K).
Notation cmd := (authenticate_command t).
Hypothesis Ag : agreed K relaxed o gr cmd (authenticate_texts t) authenticate_answers.
Hypothesis Fit : lits_fit o (enc_command K cmd).
Notation works := (works PC PS relaxed o gc gs gr T1 T2 fuel).

Lemma auth_ord : forall z L stc sts, works z L stc sts -> talk relaxed o gc gs gr T1 T2 z L /\
  orderly K relaxed o gr (app_log L) /\ own_roundtrips K relaxed o (app_log L) /\
  (enqueued (clogs (app_log L)) = [] \/ exists h, enqueued (clogs (app_log L)) = [(h, cmd)]).
Proof.
  intros z L stc sts W. pose proof (works_talk _ _ _ _ _ _ _ _ _ _ _ _ _ _ _ W) as Tk. split; [exact Tk|].
  assert (Pr : pair K PC PS L) by (destruct W as (acts & _ & _ & S1 & S2); split; eexists; eassumption).
  destruct (pair_orderly K relaxed o gc gs gr T1 T2 PC PS cmd _ _ Ag (auth_fine _ _ _ _ _ _ _ _ t)
    (auth_nice _ _ _ _ _ _ _ _ t) (auth_says _ _ _ _ _ _ _ _ t) z L Tk Pr) as [Ord Own].
  split; [exact Ord|]. split; [exact Own|]. exact (proj1 (auth_fine _ _ _ _ _ _ _ _ t z L Tk Pr)).
Qed.

Lemma auth_bound : forall n z L stc sts, works z L stc sts -> length (given (rights L)) <= n ->
  busies CM is_turn (lefts L) <= Datatypes.S n /\ busies SM asks_answer (rights L) <= Datatypes.S n.
Proof.
  intros n z L stc sts W Hn. destruct (auth_ord _ _ _ _ W) as (Tk & Ord & Own & Only).
  assert (Le : asks (clogs (app_log L)) <= n).
  { eapply PeanoNat.Nat.le_trans; [apply asks_reported|]. eapply PeanoNat.Nat.le_trans; [eapply few_responses; eauto|exact Hn]. }
  split.
  - eapply PeanoNat.Nat.le_trans; [apply busies_client|]. rewrite turn_bound.
    pose proof (one_greeting _ _ _ _ _ _ _ _ _ _ Tk Ord Own). fold (asks (clogs (app_log L))). lia.
  - eapply PeanoNat.Nat.le_trans; [apply busies_server; now intros []|].
    destruct (few_reports _ _ _ _ _ _ _ _ _ _ _ Tk Ord Own Only Fit) as (rd & rest & Hq & ->).
    eapply PeanoNat.Nat.le_trans; [apply filter_le|]. rewrite map_length.
    enough (Y : length (requests (clogs (app_log L))) <= Datatypes.S n) by (rewrite Hq, app_length in Y; lia).
    destruct (few_requests _ _ _ _ _ _ _ _ _ _ _ Tk Only) as [->|(h & En & ->)]; [cbn; lia|]. cbn. apply le_n_S.
    eapply PeanoNat.Nat.le_trans; [apply segment_le|]. eapply PeanoNat.Nat.le_trans; [|exact Le].
    destruct (talk_client _ _ _ _ _ _ _ _ _ _ Tk) as (f & s & acts & x & R1).
    pose proof W as (_ & _ & _ & S1 & _).
    destruct (client_authenticate_rs_inv K t _ _ _ _ _ _ _ _ _ _ R1 S1) as [_ G].
    rewrite <- clogs_app_log in G. rewrite answers_calls.
    destruct G as [G|(h1 & A2 & m & (A1 & y & EA & C1 & _) & C2 & Hm)]; [rewrite G; cbn; lia|].
    rewrite EA. rewrite c_calls_app, C1. cbn. fold (c_calls A2). rewrite C2. unfold given_data.
    rewrite asks_app'.
    change (asks (ClNext (IEvent (CeGreetingReceived y)) :: ClEnqueue cmd h1 :: A2)) with (asks A2).
    assert (X : length (answers authenticate_data m) <= m).
    { unfold answers. rewrite firstn_length. lia. }
    assert (Z : forall k, length (flat_map (fun e => match e with ClSetAuth d (inl _) => [RqData d] | ClSetDone (Some _) => [RqDone] | _ => [] end)
      (map (fun d => ClSetAuth d (inl h1)) k)) = length k).
    { induction k as [|d k IH]; [reflexivity|]. cbn. now rewrite IH. }
    rewrite Z. lia.
Qed.

Lemma auth_lives : forall z L stc sts, works z L stc sts ->
  (stc = PEnd EndReturned \/ going stc) /\ going sts /\
  (forall n, Acc (fun w' w => program_moves PC PS T1 T2 fuel w' w /\ length (given (rights (log_of _ _ _ _ _ w'))) <= n) (z, L, stc, sts)) /\
  (stc = PEnd EndReturned \/ exists w, program_moves PC PS T1 T2 fuel w (z, L, stc, sts)).
Proof.
  intros z L stc sts W. destruct (auth_ord _ _ _ _ W) as (Tk & Ord & Own & Only).
  destruct (talk_client _ _ _ _ _ _ _ _ _ _ Tk) as (f & s & acts & x & R1).
  destruct (talk_server _ _ _ _ _ _ _ _ _ _ Tk) as (f2 & s2 & acts2 & x2 & R2).
  pose proof W as (_ & _ & _ & S1 & S2).
  destruct (client_authenticate_rs_inv K t _ _ _ _ _ _ _ _ _ _ R1 S1) as [J1 _].
  destruct (server_authenticate_rs_inv K _ _ _ _ _ _ _ _ _ _ _ R2 S2) as [J2 _].
  assert (G1 : stc = PEnd EndReturned \/ going stc).
  { assert (X : stc = PEnd EndReturned \/ stc <> PEnd EndReturned)
      by (destruct stc as [|p k|[| |r|]]; try (now left); right; discriminate).
    destruct X as [X|X]; [now left|right]. eapply client_going; eauto; intros ->; exact J1. }
  assert (G2 : going sts) by (eapply server_going; eauto; intros ->; exact J2).
  split; [exact G1|]. split; [exact G2|].
  split.
  2:{ destruct G1 as [G1|G1]; [now left|right].
      assert (Nr : ~ at_rest z) by (intro Rs; exact (auth_rest K relaxed o gc gs gr T1 T2 t Ag z L stc sts Tk S1 S2 Fit Rs)).
      assert (Y : at_rest z \/ exists w, program_moves PC PS T1 T2 fuel w (z, L, stc, sts)) by (eapply works_moves; eauto).
      now destruct Y. }
  intro n.
  assert (X : Acc (ok_moves K T1 T2 fuel PC PS (fun L => length (given (rights L)) <= n)) (z, L, stc, sts)).
  { eapply works_acc with (busyc := is_turn) (busys := asks_answer) (Bc := Datatypes.S n) (Bs := Datatypes.S n); eauto.
    - repeat split; try discriminate.
      + intros [|ds] coin e; destruct e; cbn; try lia; destruct ds; cbn; lia.
      + intros [|ds] coin e p k r E; destruct e; try discriminate; cbn in E;
          try (injection E as <- <-; destruct r; reflexivity).
        destruct ds; injection E as <- <-; destruct r as [| |d0 [|]| | | |]; reflexivity.
    - repeat split; try discriminate.
      + intros [|cur] coin e; destruct e; cbn; try lia; destruct coin; cbn; try lia; destruct cur; cbn; lia.
      + intros [|cur] coin e p k r E; destruct e; try discriminate; cbn in E;
          try (injection E as <- <-; destruct r; reflexivity);
          destruct coin; try (injection E as <- <-; destruct r as [| |y0 [|]|y0 [|]|y0 [|]|y0 [|]| | | ]; reflexivity).
        destruct cur; [|discriminate]. injection E as <- <-; destruct r as [| |y0 [|]|y0 [|]|y0 [|]|y0 [|]| | | ]; reflexivity.
    - intros. eapply auth_bound; eauto. }
  exact X.
Qed.
End AuthLive.
End Instances.
