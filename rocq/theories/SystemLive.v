(** A client connected to a server: each side runs as it does alone, there are no panics,
    and without the applications only finitely many things happen. *)
From Coq Require Import List NArith Bool PeanoNat Lia ZifyBool ZifyNat ZifyN Wellfounded.
From Verif Require Import Base Types Codec Handle Receive ServerSend ClientSend Client Server
  SpecFraming SpecClient SpecServer ReceiveProofs ClientRecv ServerRecv ClientAbs ServerAbs
  ServerInv System SystemAbs SpecSystem SpecSystemLive.
From Verif Require ClientInv ClientDet ServerDet ClientLive ServerLive ServerProps.
Import ListNotations.

(** *** Projections *)

(** The calls that the two sides see. *)
Fixpoint ccalls (K : Codecs) (y : sys) (acts : list yact) : list cop :=
  match acts with
  | [] => []
  | a :: acts' =>
      match a with
      | YClient p => if is_cinput p then [] else [p]
      | YToClient n => [CopEnqueueInput (firstn n (y_to_client y))]
      | _ => []
      end ++
      match sys_step K y a with
      | (Some y', _) => ccalls K y' acts'
      | (None, _) => []
      end
  end.
Fixpoint scalls (K : Codecs) (y : sys) (acts : list yact) : list sop :=
  match acts with
  | [] => []
  | a :: acts' =>
      match a with
      | YServer p => if is_sinput p then [] else [p]
      | YToServer n => [SopEnqueueInput (firstn n (y_to_server y))]
      | _ => []
      end ++
      match sys_step K y a with
      | (Some y', _) => scalls K y' acts'
      | (None, _) => []
      end
  end.

Lemma crun_cons : forall K c p c1 l1 ops r l,
  client_step K c p = (Some c1, l1) -> client_run K c1 ops = (r, l) ->
  client_run K c (p :: ops) = (r, l1 ++ l).
Proof. intros. cbn -[client_step]. now rewrite H, H0. Qed.
Lemma srun_cons : forall K s p s1 l1 ops r l,
  server_step K s p = (Some s1, l1) -> server_run K s1 ops = (r, l) ->
  server_run K s (p :: ops) = (r, l1 ++ l).
Proof. intros. cbn -[server_step]. now rewrite H, H0. Qed.

Lemma sys_projects : forall K acts y r l, sys_run K y acts = (r, l) ->
  exists rc rs,
    client_run K (y_client y) (ccalls K y acts) = (rc, clogs l) /\
    server_run K (y_server y) (scalls K y acts) = (rs, slogs l) /\
    match r with
    | Some y' => rc = Some (y_client y') /\ rs = Some (y_server y')
    | None => rc = None \/ rs = None
    end.
Proof.
  intros K. induction acts as [|a acts IH]; intros y r l H.
  { cbn in H. injection H as <- <-. cbn. eauto 8. }
  cbn -[sys_step] in H.
  destruct (sys_step K y a) as [[y1|] l1] eqn:E.
  - destruct (sys_run K y1 acts) as [r2 l2] eqn:E2. injection H as <- <-.
    destruct (IH y1 r2 l2 E2) as (rc & rs & Hc & Hs & Hr).
    exists rc, rs. split; [|split; [|exact Hr]]; cbn -[sys_step]; rewrite E, ?clogs_app, ?slogs_app.
    + destruct a as [p|p|n|n]; cbn -[client_step server_step] in E |- *.
      * destruct (is_cinput p); [injection E as <- <-; exact Hc|].
        destruct (client_step K (y_client y) p) as [[c|] lc] eqn:Es; [|discriminate].
        injection E as <- <-. cbn [y_client] in Hc. rewrite clogs_YC.
        first [exact (crun_cons _ _ _ _ _ _ _ _ Es Hc) | now rewrite Hc].
      * destruct (is_sinput p); [injection E as <- <-; exact Hc|].
        destruct (server_step K (y_server y) p) as [[c|] lc] eqn:Es; [|discriminate].
        injection E as <- <-. cbn [y_client] in Hc. now rewrite clogs_YS.
      * destruct (server_step K (y_server y) _) as [[c|] lc] eqn:Es; [|discriminate].
        injection E as <- <-. cbn [y_client] in Hc. now rewrite clogs_YS.
      * destruct (client_step K (y_client y) _) as [[c|] lc] eqn:Es; [|discriminate].
        injection E as <- <-. cbn [y_client] in Hc. rewrite clogs_YC.
        first [exact (crun_cons _ _ _ _ _ _ _ _ Es Hc) | now rewrite Hc].
    + destruct a as [p|p|n|n]; cbn -[client_step server_step] in E |- *.
      * destruct (is_cinput p); [injection E as <- <-; exact Hs|].
        destruct (client_step K (y_client y) p) as [[c|] lc] eqn:Es; [|discriminate].
        injection E as <- <-. cbn [y_server] in Hs. now rewrite slogs_YC.
      * destruct (is_sinput p); [injection E as <- <-; exact Hs|].
        destruct (server_step K (y_server y) p) as [[c|] lc] eqn:Es; [|discriminate].
        injection E as <- <-. cbn [y_server] in Hs. rewrite slogs_YS.
        first [exact (srun_cons _ _ _ _ _ _ _ _ Es Hs) | now rewrite Hs].
      * destruct (server_step K (y_server y) _) as [[c|] lc] eqn:Es; [|discriminate].
        injection E as <- <-. cbn [y_server] in Hs. rewrite slogs_YS.
        first [exact (srun_cons _ _ _ _ _ _ _ _ Es Hs) | now rewrite Hs].
      * destruct (client_step K (y_client y) _) as [[c|] lc] eqn:Es; [|discriminate].
        injection E as <- <-. cbn [y_server] in Hs. now rewrite slogs_YC.
  - injection H as <- <-.
    destruct a as [p|p|n|n]; cbn -[client_step server_step sys_step]; rewrite E;
      cbn -[client_step server_step] in E |- *.
    + destruct (is_cinput p); [discriminate|].
      destruct (client_step K (y_client y) p) as [[c|] lc] eqn:Es; [discriminate|].
      injection E as <-. cbn -[client_step]. rewrite ?Es, clogs_YC, slogs_YC. eauto 8.
    + destruct (is_sinput p); [discriminate|].
      destruct (server_step K (y_server y) p) as [[c|] lc] eqn:Es; [discriminate|].
      injection E as <-. cbn -[server_step]. rewrite ?Es, clogs_YS, slogs_YS. eauto 8.
    + destruct (server_step K (y_server y) _) as [[c|] lc] eqn:Es; [discriminate|].
      injection E as <-. cbn -[server_step]. rewrite ?Es, clogs_YS, slogs_YS. eauto 8.
    + destruct (client_step K (y_client y) _) as [[c|] lc] eqn:Es; [discriminate|].
      injection E as <-. cbn -[client_step]. rewrite ?Es, clogs_YC, slogs_YC. eauto 8.
Qed.

Lemma sys_run_app : forall K acts1 acts2 y y1 l1,
  sys_run K y acts1 = (Some y1, l1) ->
  sys_run K y (acts1 ++ acts2) = (let '(r, l2) := sys_run K y1 acts2 in (r, l1 ++ l2)).
Proof.
  intros K. induction acts1 as [|a acts1 IH]; intros acts2 y y1 l1 H; cbn -[sys_step] in H |- *.
  - injection H as <- <-. now destruct (sys_run K y acts2).
  - destruct (sys_step K y a) as [[y2|] l2]; [|discriminate].
    destruct (sys_run K y2 acts1) as [r l3] eqn:E. injection H as -> <-.
    rewrite (IH acts2 y2 y1 l3 E). destruct (sys_run K y1 acts2). now rewrite app_assoc.
Qed.

(** *** No panics *)

Section Panics.
  Variable K : Codecs.
  Variable relaxed : bool.
  Variable o : soptions.
  Hypothesis NT : no_trailing K relaxed.
  Hypothesis SL : single_lines K.
  Hypothesis ST : sno_trailing K o.

  Lemma sys_run_no_panic : forall gc gs gr acts,
    exists y l, yran K relaxed gc gs o gr acts y l.
  Proof.
    intros gc gs gr acts. unfold yran.
    destruct (sys_run K (sys_new gc gs relaxed o gr) acts) as [[y|] l] eqn:E; [eauto|].
    destruct (sys_projects _ _ _ _ _ E) as (rc & rs & Hc & Hs & [->| ->]); exfalso.
    - pose proof (ClientLive.client_run_no_panic K relaxed NT SL
        (ccalls K (sys_new gc gs relaxed o gr) acts) _ _ (crel_new K relaxed gc)) as H.
      cbn [sys_new y_client] in Hc. rewrite Hc in H. now apply H.
    - pose proof (ServerLive.server_run_no_panic K o ST
        (scalls K (sys_new gc gs relaxed o gr) acts) _ _ (srel_new K o gs gr)) as H.
      cbn [sys_new y_server] in Hs. rewrite Hs in H. now apply H.
  Qed.

  Lemma sys_step_no_panic : forall gc gs gr acts y l a, yran K relaxed gc gs o gr acts y l ->
    exists y' l', sys_step K y a = (Some y', l').
  Proof.
    intros gc gs gr acts y l a R. destruct (sys_run_no_panic gc gs gr (acts ++ [a])) as (y' & l' & R').
    unfold yran in *. rewrite (sys_run_app _ _ _ _ _ _ R) in R'. cbn -[sys_step] in R'.
    destruct (sys_step K y a) as [[y2|] l2]; [eauto|discriminate].
  Qed.
End Panics.

(** *** Work *)

Definition nsync (fs : list fragment) : nat :=
  length (filter (fun f => match f with FLiteral _ LSync => true | _ => false end) fs).

(** What is left to do for the current message, without the application. *)
Definition cur_pot (m : current_message) : nat :=
  match m with
  | CmCommand _ _ fs (CaPushingFragments _) => 4 * nsync fs + 3
  | CmCommand _ _ fs (CaWaitingForFragmentsSent (Some _)) => 4 * nsync fs + 6
  | CmCommand _ _ fs (CaWaitingForFragmentsSent None) => 2
  | CmCommand _ _ fs (CaWaitingForLiteralAccepted _) => 4 * nsync fs + 5
  | CmAuthenticate _ _ (AaPushingAuthenticate _ | AaPushingAuthenticateData _) => 6
  | CmAuthenticate _ _ (AaWaitingForAuthenticateSent | AaWaitingForAuthenticateDataSent) => 5
  | CmAuthenticate _ _ AaWaitingForAuthenticateResponse => 4
  | CmAuthenticate _ _ AaWaitingForAuthenticateDataSet => 3
  | CmIdle _ _ (IaPushingIdle _) => 6
  | CmIdle _ _ IaWaitingForIdleSent => 5
  | CmIdle _ _ IaWaitingForIdleResponse => 4
  | CmIdle _ _ IaWaitingForIdleDoneSet => 3
  | CmIdle _ _ (IaPushingIdleDone _) => 2
  | CmIdle _ _ IaWaitingForIdleDoneSent => 1
  end.

Definition cmd_pot (K : Codecs) (c : command) : nat := 4 * nsync (enc_command K c) + 7.

Definition send_pot (K : Codecs) (s : csend) : nat :=
  list_sum (map (fun x => cmd_pot K (snd x)) (cs_queue s)) +
  match cs_current s with Some m => cur_pot m | None => 0 end.

Lemma push_nsync : forall fs out limbo rest, push_fragments fs = (out, limbo, rest) ->
  match limbo with Some _ => S (nsync rest) = nsync fs | None => rest = [] end.
Proof.
  induction fs as [|f fs IH]; intros out limbo rest H; cbn in H.
  - injection H as <- <- <-. reflexivity.
  - destruct f as [x|d m].
    + destruct (push_fragments fs) as [[o1 l1] r1]. injection H as <- <- <-.
      specialize (IH _ _ _ eq_refl). destruct l1; [exact IH|exact IH].
    + destruct m.
      * injection H as <- <- <-. reflexivity.
      * destruct (push_fragments fs) as [[o1 l1] r1]. injection H as <- <- <-.
        specialize (IH _ _ _ eq_refl). destruct l1; [exact IH|exact IH].
Qed.

Lemma progress_pot : forall q m s r, cs_progress q m = (s, r) ->
  cs_queue s = q /\
  match r with
  | CsOk None => match cs_current s with Some m => cur_pot m | None => 0 end <= cur_pot m
  | CsOk (Some _) | CsOutput _ =>
      match cs_current s with Some m => cur_pot m | None => 0 end < cur_pot m
  | CsPanic => True
  end.
Proof.
  intros q m s r H. unfold cs_progress in H.
  destruct m as [h c fs act|h ca act|h t act]; destruct act; cbn in H;
    repeat match type of H with context [push_fragments ?f] =>
      let E := fresh "E" in
      destruct (push_fragments f) as [[? [?|]] ?] eqn:E; apply push_nsync in E end;
    repeat match type of H with context [match ?o with nil => _ | cons _ _ => _ end] =>
      destruct o end; cbn in H;
    repeat match type of H with context [match ?o with Some _ => _ | None => _ end] =>
      destruct o end;
    inversion H; subst; cbn [cs_queue cs_current cur_pot]; (split; [reflexivity|lia]).
Qed.

Section Work.
  Variable K : Codecs.
  Variable relaxed : bool.
  Variable o : soptions.

  Notation astep := (astep K relaxed).
  Notation anext := (anext K relaxed).
  Notation xnext := (xnext K o).

  Lemma start_pot : forall h c m, queued_start K h c = Val m -> cur_pot m < cmd_pot K c.
  Proof.
    intros h c m H. unfold queued_start in H. unfold cmd_pot.
    destruct (cbody c); [| |injection H as <-; cbn; lia].
    - destruct (single_line (enc_command K c)); [|discriminate]. injection H as <-. cbn. lia.
    - destruct (single_line (enc_command K c)); [|discriminate]. injection H as <-. cbn. lia.
  Qed.

  Lemma cs_next_pot : forall s s' r, cs_next K s = (s', r) ->
    match r with
    | CsOk None => send_pot K s' <= send_pot K s
    | CsOk (Some _) | CsOutput _ => send_pot K s' < send_pot K s
    | CsPanic => True
    end.
  Proof.
    intros [q cur] s' r H. unfold cs_next in H. cbn [cs_current cs_queue] in H. unfold send_pot.
    destruct cur as [m|].
    - apply progress_pot in H as [<- H]. cbn [cs_queue cs_current].
      destruct r as [[e|]|b|]; lia.
    - destruct q as [|[h c] q].
      + injection H as <- <-. lia.
      + destruct (queued_start K h c) as [m|] eqn:E; [|injection H as <- <-; exact I].
        apply start_pot in E. apply progress_pot in H as [<- H].
        cbn [cs_queue cs_current map list_sum fold_right snd].
        change (fold_right Nat.add 0) with list_sum.
        destruct r as [[e|]|b|]; lia.
  Qed.

  Lemma terminate_pot : forall s st s' t, cs_maybe_terminate s st = (s', t) ->
    send_pot K s' <= send_pot K s.
  Proof.
    intros [q cur] st s' t E. unfold cs_maybe_terminate in E. cbn [cs_current] in E.
    unfold send_pot.
    destruct cur as [[h c0 fs act|h ca act|h t0 act]|];
      try (injection E as <- <-; cbn; lia);
      (destruct st as [tg b|b|cd tx]; try (injection E as <- <-; cbn; lia)).
    - destruct (status_kind_is_bad (sb_kind b) && bytes_eqb tg (ctag c0));
        injection E as <- <-; cbn; lia.
    - destruct (bytes_eqb tg (ca_tag ca)); [destruct (sb_kind b)|];
        injection E as <- <-; cbn; lia.
    - destruct (bytes_eqb tg t0); injection E as <- <-; cbn; lia.
  Qed.

  Lemma release_pot : forall s s' b, cs_literal_continue s = (s', b) -> send_pot K s' <= send_pot K s.
  Proof.
    intros [q cur] s' b H. unfold cs_literal_continue in H. cbn [cs_current] in H. unfold send_pot.
    destruct cur as [[h c0 fs []|h ca []|h t0 []]|]; injection H as <- <-; cbn; lia.
  Qed.

  Lemma handle_pot : forall c m c' ir, client_handle_response c m = (c', ir) ->
    send_pot K (c_send c') <= send_pot K (c_send c).
  Proof.
    intros c m c' ir H. unfold client_handle_response in H. destruct m as [st|d|q].
    - destruct (cs_maybe_terminate (c_send c) st) as [s1 t] eqn:E. apply terminate_pot in E.
      destruct t as [[]|]; injection H as <- <-; cbn [c_send c_set_send]; lia.
    - injection H as <- <-. lia.
    - destruct (c_send c) as [qu cur] eqn:Ec.
      unfold cs_literal_continue, cs_authenticate_continue, cs_idle_continue in H.
      cbn [cs_current] in H.
      destruct cur as [[h c0 fs []|h ca []|h t0 []]|];
        cbn in H; injection H as <- <-; rewrite ?Ec; unfold send_pot; cbn; lia.
  Qed.

  Lemma quiesce_pot : forall a, send_pot K (a_send (quiesce K a)) <= send_pot K (a_send a) /\
    a_buf (quiesce K a) = a_buf a.
  Proof.
    intro a. unfold quiesce. destruct (a_greeted a); [|auto].
    destruct (cs_next K (a_send a)) as [s [[e|]|b|]] eqn:E; auto.
    apply cs_next_pot in E. cbn. auto.
  Qed.

  (** Lexicographic: first what the client has to send, then its input. *)
  Definition less2 (p p' : nat * nat) : Prop :=
    fst p < fst p' \/ (fst p = fst p' /\ snd p < snd p').
  Definition cwork (a : astate) : nat * nat := (send_pot K (a_send a), length (a_buf a)).
  Definition leq2 (p p' : nat * nat) : Prop := fst p <= fst p' /\ snd p <= snd p'.

  Lemma leq_less : forall p q r, leq2 p q -> less2 q r -> less2 p r.
  Proof. unfold leq2, less2. intros. lia. Qed.
  Lemma less_leq : forall p q r, less2 p q -> leq2 q r -> less2 p r.
  Proof. unfold leq2, less2. intros. lia. Qed.
  Lemma less_trans : forall p q r, less2 p q -> less2 q r -> less2 p r.
  Proof. unfold less2. intros. lia. Qed.

  Lemma astep_pot : forall a l a', ClientDet.next_label l -> astep a l a' ->
    l <> [ClNext INeedMore] -> less2 (cwork a') (cwork a).
  Proof.
    intros a l a' Hl H Hn. unfold less2, cwork. cbn [fst snd].
    assert (FR : forall M L (dec : bytes -> dec_result M L) acc raw ls o rest,
      framed dec relaxed acc raw ls o -> a_buf a = raw ++ rest -> S (length rest) <= length (a_buf a)).
    { intros M L dec acc raw ls o' rest F B. rewrite B, app_length.
      apply scan_nonempty in F. lia. }
    destruct H as [a cm g1 h1 Hg|a x1|a d1 s1 r1 HH|a s1 r1 HH|a s1 H0 H1|a s1 e1 H0 H1|a s1 b1 H0 H1
      |a Hset Hno|a raw1 rest ls gr H0 H1 H2|a raw1 rest ls q s1 H0 H1 H2 H3 H4
      |a raw1 rest ls m1 c1 e1 H0 H1 H2 H3 H4|a raw1 rest v e1 H0 H1 H2];
      try (destruct Hl as [(?&?)|[(?&?&?)|(?&?)]]; discriminate);
      cbn [a_buf a_send a_set_send a_set_buf].
    - apply cs_next_pot in H1. lia.
    - apply cs_next_pot in H1. lia.
    - congruence.
    - specialize (FR _ _ _ _ _ _ _ _ H2 H1). lia.
    - specialize (FR _ _ _ _ _ _ _ _ H3 H2). apply release_pot in H4. lia.
    - specialize (FR _ _ _ _ _ _ _ _ H3 H2). apply handle_pot in H4. cbn [c_send] in H4. lia.
    - assert (S (length rest) <= length (a_buf a)).
      { destruct H2 as [(_ & _ & H2)|(_ & _ & H2)]; destruct (a_greeted a); destruct H2 as (ls & H2);
          eapply FR; eauto. }
      lia.
  Qed.

  Lemma anext_pot : forall a g r a', anext a g r a' -> r <> IPanic ->
    (g = [] /\ r = INeedMore /\ leq2 (cwork a') (cwork a)) \/ less2 (cwork a') (cwork a).
  Proof.
    intros a g r a' H Hp.
    induction H as [a r a' H|a m r a' H|a m a1 g r a' H H2 IH|a a' H]; [..|congruence];
      assert (Q : leq2 (cwork (quiesce K a)) (cwork a))
        by (destruct (quiesce_pot a) as [Q1 Q2]; unfold leq2, cwork; cbn; rewrite Q2; lia).
    - assert (D : r = INeedMore \/ r <> INeedMore) by (destruct r; auto; right; discriminate).
      destruct D as [->|D].
      + left. split; [reflexivity|]. split; [reflexivity|].
        inversion H; subst; exact Q.
      + right. eapply less_leq; [|exact Q]. apply (astep_pot _ [ClNext r]); [left; eauto|exact H|congruence].
    - right. eapply less_leq; [|exact Q]. apply (astep_pot _ [ClRx m; ClNext r]); [right; left; eauto|exact H|congruence].
    - right.
      assert (L : less2 (cwork a1) (cwork a)).
      { eapply less_leq; [|exact Q]. apply (astep_pot _ [ClRx m]); [right; right; eauto|exact H|congruence]. }
      destruct (IH Hp) as [(_ & _ & IH1)|IH1]; [eapply leq_less; eauto|eapply less_trans; eauto].
  Qed.

  Lemma anext_out : forall a g b a', anext a g (IOutput b) a' ->
    send_pot K (a_send a') < send_pot K (a_send a).
  Proof.
    intros a g b a' H. remember (IOutput b) as r eqn:Er.
    induction H as [a r a' H|a m r a' H|a m a1 g r a' H H2 IH|a a' H]; subst.
    - destruct (quiesce_pot a) as [Q1 _].
      inversion H; subst. cbn [a_send a_set_send].
      match goal with E : cs_next K _ = _ |- _ => apply cs_next_pot in E; lia end.
    - inversion H.
    - specialize (IH eq_refl). destruct (quiesce_pot a) as [Q1 _].
      pose proof (astep_pot _ [ClRx m] _ (or_intror (or_intror (ex_intro _ m eq_refl))) H ltac:(congruence)) as L.
      unfold less2, cwork in L. cbn [fst snd] in L. lia.
    - discriminate.
  Qed.

  Lemma xnext_pot : (0 < so_max_command_size o)%N -> forall a g r a', xwf K o a ->
    xnext a g r a' -> r <> IPanic ->
    (g = [] /\ r = INeedMore /\ ServerLive.swork a' <= ServerLive.swork a) \/
    ServerLive.swork a' < ServerLive.swork a.
  Proof.
    intros Hmax a g r a' Hwf H Hp. induction H as [a g r a' H|a i a1 g r a' H H2 IH|a a' H];
      [..|congruence].
    - assert (D : (g = [] /\ r = INeedMore) \/ map SlRx g ++ [SlNext r] <> [SlNext INeedMore]).
      { destruct g as [|x g]; [|right; destruct g; discriminate].
        destruct r; auto; right; discriminate. }
      destruct D as [[-> ->]|D].
      + left. split; [reflexivity|]. split; [reflexivity|]. cbn in H.
        inversion H as [? p ? e C| | |? s1 Q C| | |]; subst.
        * exfalso. destruct (ServerProps.xcall_label _ _ _ _ C) as [H1 _]. now eapply H1.
        * apply ServerLive.quiet_work in Q. unfold ServerLive.swork, x_buf, x_set_send.
          cbn [x_send x_pre x_rest]. lia.
      + right. eapply (ServerLive.xstep_work K o Hmax); eauto.
        intros e E. destruct g as [|x g]; cbn in E; [injection E as <-; eauto|].
        destruct g; discriminate.
    - right.
      assert (L : ServerLive.swork a1 < ServerLive.swork a).
      { eapply (ServerLive.xstep_work K o Hmax); eauto; [|discriminate].
        intros e E. injection E as <-. eauto. }
      destruct (IH (xstep_wf K o _ _ _ Hwf H) Hp) as [(_ & _ & IH1)|IH1]; lia.
  Qed.

  (** *** The measure of the whole *)

  Definition work (z : zstate) : nat * (nat * nat) :=
    (send_pot K (a_send (z_a z)),
     (7 * length (z_toS z) + ServerLive.swork (z_x z),
      2 * length (z_toC z) + length (a_buf (z_a z)))).

  Definition less3 (p p' : nat * (nat * nat)) : Prop :=
    fst p < fst p' \/ (fst p = fst p' /\ less2 (snd p) (snd p')).
  Definition leq3 (p p' : nat * (nat * nat)) : Prop := fst p <= fst p' /\ leq2 (snd p) (snd p').

  Lemma less3_wf : well_founded less3.
  Proof.
    assert (W2 : well_founded less2).
    { intros [a b]. revert b. induction a as [a IHa] using (well_founded_induction Nat.lt_wf_0).
      intro b. induction b as [b IHb] using (well_founded_induction Nat.lt_wf_0).
      constructor. intros [a' b'] [H|[H1 H2]]; cbn in *; [now apply IHa|]. subst a'. now apply IHb. }
    intros [a p]. revert p. induction a as [a IHa] using (well_founded_induction Nat.lt_wf_0).
    intro p. induction p as [p IHp] using (well_founded_induction W2).
    constructor. intros [a' p'] [H|[H1 H2]]; cbn in *; [now apply IHa|]. subst a'. now apply IHp.
  Qed.

  Lemma leq_less3 : forall p q r, leq3 p q -> less3 q r -> less3 p r.
  Proof. unfold leq3, less3, leq2, less2. intros. lia. Qed.
  Lemma less_leq3 : forall p q r, less3 p q -> leq3 q r -> less3 p r.
  Proof. unfold leq3, less3, leq2, less2. intros. lia. Qed.
  Lemma less_trans3 : forall p q r, less3 p q -> less3 q r -> less3 p r.
  Proof. unfold less3, less2. intros. lia. Qed.
  Lemma leq_trans3 : forall p q r, leq3 p q -> leq3 q r -> leq3 p r.
  Proof. unfold leq3, leq2. intros. lia. Qed.

  Hypothesis Hmax : (0 < so_max_command_size o)%N.
  Notation yrel := (yrel K relaxed o).

  Lemma sys_step_work : forall y z a y' l, yrel y z -> auto a -> sys_step K y a = (Some y', l) ->
    exists z', yrel y' z' /\
      ((Forall idle_entry l /\ leq3 (work z') (work z)) \/ less3 (work z') (work z)).
  Proof.
    intros y z a y' l R Ha H.
    destruct z as [c x ts tc]. pose proof R as (Hc & Hs & Hts & Htc). cbn in Hc, Hs, Hts, Htc.
    destruct a as [p|p|n|n].
    - destruct p; try contradiction. unfold sys_step in H. cbn [is_cinput client_step] in H.
      destruct (client_next K (y_client y)) as [[c1 g] r] eqn:E.
      destruct (client_next_sim K relaxed _ _ _ _ _ Hc E) as (c' & N & _ & _ & R1).
      destruct (c_is_panic r) eqn:Ep; [discriminate|].
      assert (Hp : r <> IPanic) by (intros ->; discriminate).
      injection H as <- <-.
      exists (ZState c' x (y_to_server y ++ cwritten (map ClRx g ++ [ClNext r])) tc). split.
      { unfold SystemAbs.yrel. cbn. auto. }
      assert (W : match r with IOutput b => cwritten (map ClRx g ++ [ClNext r]) = b
                  | _ => cwritten (map ClRx g ++ [ClNext r]) = [] end).
      { clear. induction g as [|m g IH]; [destruct r; cbn; try reflexivity; try apply app_nil_r|].
        destruct r; exact IH. }
      destruct (anext_pot _ _ _ _ N Hp) as [(-> & -> & [L1 L2])|L].
      + left. split; [repeat constructor|]. unfold leq3, leq2, work, cwork in *.
        cbn [fst snd z_a z_x z_toS z_toC] in *. rewrite W, app_nil_r, Hts. lia.
      + right. unfold less3, less2, work, cwork in *. cbn [fst snd z_a z_x z_toS z_toC] in *.
        destruct L as [L|[L1 L2]]; [left; exact L|right].
        assert (W0 : cwritten (map ClRx g ++ [ClNext r]) = []).
        { destruct r; auto. apply anext_out in N. lia. }
        rewrite W0, app_nil_r, Hts. lia.
    - destruct p; try contradiction. unfold sys_step in H. cbn [is_sinput server_step] in H.
      destruct (server_next K (y_server y)) as [[s1 g] r] eqn:E.
      destruct (server_next_sim K o _ _ _ _ _ Hs E) as (x' & N & _ & _ & R1).
      destruct (s_is_panic r) eqn:Ep; [discriminate|].
      assert (Hp : r <> IPanic) by (intros ->; discriminate).
      injection H as <- <-.
      exists (ZState c x' ts (y_to_client y ++ swritten (map SlRx g ++ [SlNext r]))). split.
      { unfold SystemAbs.yrel. cbn. auto. }
      assert (Hwf : xwf K o x) by apply Hs.
      destruct (xnext_pot Hmax _ _ _ _ Hwf N Hp) as [(-> & -> & L)|L].
      + left. split; [repeat constructor|]. unfold leq3, leq2, work. cbn [fst snd z_a z_x z_toS z_toC].
        cbn [map app swritten]. rewrite app_nil_r, Htc. lia.
      + right. unfold less3, less2, work. cbn [fst snd z_a z_x z_toS z_toC]. lia.
    - subst ts tc. cbn -[client_step server_step] in H.
      destruct (server_step K (y_server y) _) as [[s|] lc] eqn:E; [|discriminate].
      injection H as <- <-.
      destruct (server_call_sim K o _ _ (SopEnqueueInput (firstn n (y_to_server y))) _ _ Hs
                  ltac:(discriminate) E) as (x' & e & -> & Ex & R').
      cbn in Ex. injection Ex as <- <-.
      eexists (ZState c _ (skipn n (y_to_server y)) (y_to_client y)). split.
      { unfold SystemAbs.yrel. cbn [y_client y_server y_to_server y_to_client z_a z_x z_toS z_toC].
        eauto. }
      pose proof (firstn_skipn n (y_to_server y)) as F. apply (f_equal (@length byte)) in F.
      rewrite app_length in F.
      unfold less3, less2, leq3, leq2, work, ServerLive.swork, x_buf.
      cbn [fst snd z_a z_x z_toS z_toC x_send x_pre x_lits x_rest x_need x_mode x_gen].
      rewrite !app_length.
      destruct (firstn n (y_to_server y)) as [|b d].
      + left. split; [repeat constructor|]. cbn [length] in *. lia.
      + right. cbn [length] in *. lia.
    - subst ts tc. assert (H0 := H). cbn -[client_step server_step] in H.
      destruct (client_step K (y_client y) _) as [[c1|] lc] eqn:E; [|discriminate].
      injection H as <- <-.
      assert (El : lc = [ClInput (firstn n (y_to_client y))]).
      { cbn in E. destruct (client_enqueue_input _ _); [|discriminate]. now injection E as <- <-. }
      subst lc.
      exists (ZState (a_set_buf c (a_buf c ++ firstn n (y_to_client y))) x (y_to_server y)
                (skipn n (y_to_client y))). split.
      { split; [|cbn; auto]. cbn [z_a].
        destruct Hc as (Hg & Hsd & Hr). unfold client_step, client_enqueue_input in E.
        destruct (c_recv (y_client y)) as [s|s|] eqn:Ec; [| |discriminate]; injection E as <-;
          destruct Hr as (Hgr & Hb & Hread);
          unfold crel; cbn; repeat split; auto; try congruence;
          destruct Hread as (H1 & H2 & pp & u & ls & H3 & H4); auto;
          exists pp, (u ++ firstn n (y_to_client y)), ls; split; auto;
          now apply rinv_add. }
      pose proof (firstn_skipn n (y_to_client y)) as F. apply (f_equal (@length byte)) in F.
      rewrite app_length in F.
      unfold less3, less2, leq3, leq2, work.
      cbn [fst snd z_a z_x z_toS z_toC a_set_buf a_send a_buf].
      rewrite !app_length.
      destruct (firstn n (y_to_client y)) as [|b d].
      + left. split; [repeat constructor|]. cbn [length] in *. lia.
      + right. cbn [length] in *. lia.
  Qed.

  Lemma sys_run_work : forall acts y z y' l, yrel y z -> Forall auto acts ->
    sys_run K y acts = (Some y', l) ->
    exists z', yrel y' z' /\
      ((Forall idle_entry l /\ leq3 (work z') (work z)) \/ less3 (work z') (work z)).
  Proof.
    induction acts as [|a acts IH]; intros y z y' l R Ha H; cbn -[sys_step] in H.
    - injection H as <- <-. exists z. split; [exact R|]. left. split; [constructor|].
      unfold leq3, leq2. lia.
    - destruct (sys_step K y a) as [[y1|] l1] eqn:E; [|discriminate].
      destruct (sys_run K y1 acts) as [r l2] eqn:E2. injection H as -> <-.
      destruct (sys_step_work _ _ _ _ _ R (Forall_inv Ha) E) as (z1 & R1 & W1).
      destruct (IH _ _ _ _ R1 (Forall_inv_tail Ha) E2) as (z' & R' & W2).
      exists z'. split; [exact R'|].
      destruct W1 as [[I1 L1]|L1], W2 as [[I2 L2]|L2].
      + left. split; [apply Forall_app; auto|eauto using leq_trans3].
      + right. eauto using less_leq3.
      + right. eauto using leq_less3.
      + right. eauto using less_trans3.
  Qed.

  Lemma progress_acc : forall z y, yrel y z -> Acc (progress K) y.
  Proof.
    intro z. remember (work z) as w eqn:Ew. revert z Ew.
    induction w as [w IH] using (well_founded_induction less3_wf). intros z -> y R.
    constructor. intros y' (acts & l & Ha & H & e & Hin & He).
    destruct (sys_run_work _ _ _ _ _ R Ha H) as (z' & R' & [[I _]|L]).
    - exfalso. apply He. now apply (proj1 (Forall_forall _ _) I).
    - eapply IH; eauto.
  Qed.
End Work.

(** *** When nothing can happen *)

Section Still.
  Variable K : Codecs.
  Variable relaxed : bool.
  Variable o : soptions.
  Notation anext := (anext K relaxed).
  Notation xnext := (xnext K o).
  Notation yrel := (yrel K relaxed o).

  Definition zstill (z : zstate) : Prop :=
    z_toS z = [] /\ z_toC z = [] /\
    (exists a, anext (z_a z) [] INeedMore a) /\
    (exists x1 x2, xnext (z_x z) [] INeedMore x1 /\ xnext x1 [] INeedMore x2).

  Lemma anext_still : forall a a', anext a [] INeedMore a' -> anext a' [] INeedMore a'.
  Proof.
    intros a a' H. inversion H as [? ? ? H1| | |]; subst. inversion H1; subst.
    apply an_send. rewrite quiesce_idem. assumption.
  Qed.

  Lemma xnext_still : forall x x1, xnext x [] INeedMore x1 ->
    exists s1, quiet (x_send x) = Some s1 /\ x1 = x_set_send x s1 /\
      (x_mode x = ExIdleAccept \/
       (no_line (NfLiteral (x_need x)) (x_rest x) /\
        (N.of_nat (length (x_buf x)) < so_max_command_size o)%N)).
  Proof.
    intros x x1 H. inversion H as [? ? ? ? H1| |]; subst. cbn in H1.
    inversion H1 as [? p ? e C| | |? s1 Q C| | |]; subst; [|eauto].
    exfalso. destruct (ServerProps.xcall_label _ _ _ _ C) as [H2 _]. now eapply H2.
  Qed.

  Lemma xnext_twice : forall x x1 x2, xnext x [] INeedMore x1 -> xnext x1 [] INeedMore x2 -> x2 = x1.
  Proof.
    intros x x1 x2 H1 H2. apply xnext_still in H1 as (s1 & Q1 & -> & _).
    apply xnext_still in H2 as (s2 & Q2 & -> & _). cbn [x_send x_set_send] in Q2.
    enough (s2 = s1) as -> by reflexivity.
    unfold quiet in Q1, Q2. destruct (ss_current (x_send x)) as [[g|[h|] r]|] eqn:Ec; try discriminate.
    - injection Q1 as <-. cbn in Q2. destruct (ss_queue (x_send x)); [|discriminate]. congruence.
    - destruct (ss_queue (x_send x)) eqn:Eq; [|discriminate]. injection Q1 as <-.
      rewrite Ec, Eq in Q2. congruence.
  Qed.

  Lemma waiting_still : forall y z, yrel y z -> waiting_twice K y <-> zstill z.
  Proof.
    intros y z (Hc & Hs & Hts & Htc). split.
    - intros ((T1 & T2 & (c & Ec) & _) & s1 & s2 & E1 & E2).
      split; [congruence|]. split; [congruence|].
      destruct (client_next_sim K relaxed _ _ _ _ _ Hc Ec) as (a & N & _).
      destruct (server_next_sim K o _ _ _ _ _ Hs E1) as (x1 & N1 & _ & _ & R1).
      assert (R1' : srel K o s1 x1) by (apply R1; discriminate).
      destruct (server_next_sim K o _ _ _ _ _ R1' E2) as (x2 & N2 & _). eauto 8.
    - intros (T1 & T2 & (a & N) & x1 & x2 & N1 & N2).
      destruct (client_next K (y_client y)) as [[c g] r] eqn:Ec.
      destruct (ClientDet.client_next_det _ _ _ _ _ _ _ _ _ _ Hc N Ec) as (-> & -> & _).
      destruct (server_next K (y_server y)) as [[s1 g1] r1] eqn:E1.
      destruct (ServerDet.server_next_det _ _ _ _ _ _ _ _ _ _ Hs N1 E1) as (-> & -> & R1).
      assert (R1' : srel K o s1 x1) by (apply R1; discriminate).
      destruct (server_next K s1) as [[s2 g2] r2] eqn:E2.
      destruct (ServerDet.server_next_det _ _ _ _ _ _ _ _ _ _ R1' N2 E2) as (-> & -> & _).
      split; [|eauto]. split; [congruence|]. split; [congruence|]. eauto.
  Qed.

  Lemma still_step : forall y z a y' l, yrel y z -> zstill z -> auto a ->
    sys_step K y a = (Some y', l) ->
    Forall idle_entry l /\ exists z', yrel y' z' /\ zstill z'.
  Proof.
    intros y z a y' l R S Ha H. destruct S as (T1 & T2 & (a1 & N) & x1 & x2 & N1 & N2).
    destruct z as [c x ts tc]. pose proof R as (Hc & Hs & Hts & Htc).
    cbn [z_a z_x z_toS z_toC] in *. subst ts tc.
    destruct a as [p|p|n|n].
    - destruct p; try contradiction. unfold sys_step in H. cbn [is_cinput client_step] in H.
      destruct (client_next K (y_client y)) as [[c1 g] r] eqn:E.
      destruct (ClientDet.client_next_det _ _ _ _ _ _ _ _ _ _ Hc N E) as (-> & -> & R1).
      injection H as <- <-. split; [repeat constructor|].
      exists (ZState a1 x (y_to_server y ++ []) []). split.
      { unfold SystemAbs.yrel. cbn. rewrite Hts, Htc.
        split; [apply R1; discriminate|]. auto. }
      unfold zstill. cbn. rewrite Hts. split; [reflexivity|]. split; [reflexivity|].
      apply anext_still in N. eauto 8.
    - destruct p; try contradiction. unfold sys_step in H. cbn [is_sinput server_step] in H.
      destruct (server_next K (y_server y)) as [[s1 g] r] eqn:E.
      destruct (ServerDet.server_next_det _ _ _ _ _ _ _ _ _ _ Hs N1 E) as (-> & -> & R1).
      injection H as <- <-. split; [repeat constructor|].
      exists (ZState c x1 [] (y_to_client y ++ [])). split.
      { unfold SystemAbs.yrel. cbn. rewrite Hts, Htc.
        split; [exact Hc|]. split; [apply R1; discriminate|auto]. }
      unfold zstill. cbn. rewrite Htc. split; [reflexivity|]. split; [reflexivity|].
      rewrite (xnext_twice _ _ _ N1 N2) in N2. eauto 8.
    - unfold sys_step in H. rewrite Hts, firstn_nil, skipn_nil in H.
      cbn [server_step] in H.
      destruct (ServerDet.enqueue_input_sim K o _ _ [] Hs) as (s1 & E & R1). rewrite E in H.
      injection H as <- <-. split; [repeat constructor|].
      exists (ZState c x [] []). rewrite ServerDet.x_add_nil in R1. split.
      { unfold SystemAbs.yrel. cbn. auto. }
      unfold zstill. cbn. eauto 8.
    - unfold sys_step in H. rewrite Htc, firstn_nil, skipn_nil in H.
      cbn [client_step] in H.
      destruct (ClientDet.enqueue_input_sim K relaxed _ _ [] Hc) as (c1 & E & R1). rewrite E in H.
      injection H as <- <-. split; [repeat constructor|].
      exists (ZState c x [] []). rewrite ClientDet.a_add_nil in R1. split.
      { unfold SystemAbs.yrel. cbn. auto. }
      unfold zstill. cbn. eauto 8.
  Qed.

  Lemma still_run : forall acts y z y' l, yrel y z -> zstill z -> Forall auto acts ->
    sys_run K y acts = (Some y', l) ->
    Forall idle_entry l /\ exists z', yrel y' z' /\ zstill z'.
  Proof.
    induction acts as [|a acts IH]; intros y z y' l R S Ha H; cbn -[sys_step] in H.
    - injection H as <- <-. split; [constructor|eauto].
    - destruct (sys_step K y a) as [[y1|] l1] eqn:E; [|discriminate].
      destruct (sys_run K y1 acts) as [r l2] eqn:E2. injection H as -> <-.
      destruct (still_step _ _ _ _ _ R S (Forall_inv Ha) E) as (I1 & z1 & R1 & S1).
      destruct (IH _ _ _ _ R1 S1 (Forall_inv_tail Ha) E2) as (I2 & H2).
      split; [apply Forall_app; auto|exact H2].
  Qed.
End Still.

Lemma yran_rel : forall K relaxed o gc gs gr acts y l, yran K relaxed gc gs o gr acts y l ->
  exists z, yrel K relaxed o y z.
Proof.
  intros K relaxed o gc gs gr acts y l R.
  destruct (sys_run_sim K relaxed o _ _ _ _ _ (yrel_new K relaxed o gc gs gr) R) as (z & _ & H). eauto.
Qed.

Lemma terminates : forall K relaxed o gc gs gr acts y l, yran K relaxed gc gs o gr acts y l ->
  (0 < so_max_command_size o)%N -> Acc (progress K) y.
Proof.
  intros K relaxed o gc gs gr acts y l R Hmax. apply yran_rel in R as [z R].
  eapply progress_acc; eauto.
Qed.

Lemma waiting_stops : forall K relaxed o gc gs gr acts y l, yran K relaxed gc gs o gr acts y l ->
  waiting_twice K y -> forall acts' y' l', Forall auto acts' -> sys_run K y acts' = (Some y', l') ->
  Forall idle_entry l' /\ waiting_twice K y'.
Proof.
  intros K relaxed o gc gs gr acts y l R W acts' y' l' Ha H. apply yran_rel in R as [z R].
  apply (waiting_still _ _ _ _ _ R) in W.
  destruct (still_run _ _ _ _ _ _ _ _ R W Ha H) as (I & z' & R' & W').
  split; [exact I|]. now apply (waiting_still _ _ _ _ _ R').
Qed.

Section Schedule.
  Variable K : Codecs.
  Variable relaxed : bool.
  Variable o : soptions.
  Hypothesis NT : no_trailing K relaxed.
  Hypothesis SL : single_lines K.
  Hypothesis ST : sno_trailing K o.

  Lemma one_step : forall y a y' l e, sys_step K y a = (Some y', l) -> auto a -> In e l ->
    ~ idle_entry e -> progress K y' y.
  Proof.
    intros y a y' l e E Ha Hin He. exists [a], l. split; [auto|]. split; [|eauto].
    cbn -[sys_step]. rewrite E, app_nil_r. reflexivity.
  Qed.

  Lemma waits_or_moves : forall gc gs gr acts y l, yran K relaxed gc gs o gr acts y l ->
    waiting_twice K y \/ exists y', progress K y' y.
  Proof.
    intros gc gs gr acts y l R.
    pose proof (fun a => sys_step_no_panic K relaxed o NT SL ST gc gs gr acts y l a R) as P.
    destruct (y_to_server y) as [|b d] eqn:Ets.
    2: { right. destruct (P (YToServer 1)) as (y' & l' & E). exists y'.
         pose proof E as E0. cbn -[server_step] in E. rewrite Ets in E.
         destruct (server_step K (y_server y) _) as [[s|] ls] eqn:Es; [|discriminate].
         injection E as _ <-. cbn in Es.
         destruct (server_enqueue_input (y_server y) [b]); [|discriminate]. injection Es as _ <-.
         eapply one_step; [exact E0|exact I|left; reflexivity|cbn; tauto]. }
    destruct (y_to_client y) as [|b d] eqn:Etc.
    2: { right. destruct (P (YToClient 1)) as (y' & l' & E). exists y'.
         pose proof E as E0. cbn -[client_step] in E. rewrite Etc in E.
         destruct (client_step K (y_client y) _) as [[s|] ls] eqn:Es; [|discriminate].
         injection E as _ <-. cbn in Es.
         destruct (client_enqueue_input (y_client y) [b]); [|discriminate]. injection Es as _ <-.
         eapply one_step; [exact E0|exact I|left; reflexivity|cbn; tauto]. }
    destruct (client_next K (y_client y)) as [[c g] r] eqn:Ec.
    assert (Dc : (g = [] /\ r = INeedMore) \/
      exists e, In e (map YC (map ClRx g ++ [ClNext r])) /\ ~ idle_entry e).
    { destruct g as [|m g].
      - destruct r; auto; right; eexists; (split; [left; reflexivity|cbn; tauto]).
      - right. eexists. split; [left; reflexivity|cbn; tauto]. }
    destruct Dc as [[-> ->]|(e & Hin & He)].
    2: { right. destruct (P (YClient CopNext)) as (y' & l' & E). exists y'.
         pose proof E as E0. unfold sys_step in E. cbn [is_cinput client_step] in E. rewrite Ec in E.
         destruct (c_is_panic r) eqn:Ep; [discriminate|]. injection E as _ <-.
         eapply one_step; [exact E0|exact I|exact Hin|exact He]. }
    assert (Ds : forall g r, (g = [] /\ r = INeedMore) \/
      exists e, In e (map YS (map SlRx g ++ [SlNext r])) /\ ~ idle_entry e).
    { clear. intros [|m g] r.
      - destruct r; auto; right; eexists; (split; [left; reflexivity|cbn; tauto]).
      - right. eexists. split; [left; reflexivity|cbn; tauto]. }
    destruct (server_next K (y_server y)) as [[s1 g1] r1] eqn:E1.
    destruct (P (YServer SopNext)) as (y1 & l1 & E). pose proof E as E0.
    unfold sys_step in E. cbn [is_sinput server_step] in E. rewrite E1 in E.
    destruct (s_is_panic r1) eqn:Ep1; [discriminate|].
    assert (El : l1 = map YS (map SlRx g1 ++ [SlNext r1])) by congruence.
    assert (Ey : y_server y1 = s1) by (injection E as <- _; reflexivity). clear E.
    destruct (Ds g1 r1) as [[-> ->]|(e & Hin & He)].
    2: { right. exists y1. eapply one_step; [exact E0|exact I|rewrite El; exact Hin|exact He]. }
    destruct (server_next K s1) as [[s2 g2] r2] eqn:E2.
    destruct (Ds g2 r2) as [[-> ->]|(e & Hin & He)].
    { left. split; [|eauto]. split; [assumption|]. split; [assumption|]. eauto. }
    right.
    assert (R1 : yran K relaxed gc gs o gr (acts ++ [YServer SopNext]) y1 (l ++ l1)).
    { unfold yran in *. rewrite (sys_run_app _ _ _ _ _ _ R). cbn -[sys_step]. rewrite E0.
      now rewrite app_nil_r. }
    destruct (sys_step_no_panic K relaxed o NT SL ST gc gs gr _ _ _ (YServer SopNext) R1)
      as (y2 & l2 & E3).
    exists y2, [YServer SopNext; YServer SopNext], (l1 ++ l2). split; [repeat constructor|].
    split; [cbn -[sys_step]; rewrite E0, E3, app_nil_r; reflexivity|].
    exists e. split; [|exact He]. apply in_or_app. right.
    unfold sys_step in E3. cbn [is_sinput server_step] in E3. rewrite Ey, E2 in E3.
    destruct (s_is_panic r2); [discriminate|]. injection E3 as _ <-. exact Hin.
  Qed.

  Lemma settles : (0 < so_max_command_size o)%N ->
    forall gc gs gr acts y l, yran K relaxed gc gs o gr acts y l ->
    exists acts' y' l', Forall auto acts' /\ yran K relaxed gc gs o gr (acts ++ acts') y' (l ++ l') /\
      waiting_twice K y'.
  Proof.
    intros Hmax gc gs gr acts y l R.
    pose proof (terminates _ _ _ _ _ _ _ _ _ R Hmax) as A. revert acts l R.
    induction A as [y _ IH]. intros acts l R.
    destruct (waits_or_moves _ _ _ _ _ _ R) as [W|(y1 & P)].
    - exists [], y, []. rewrite !app_nil_r. auto.
    - pose proof P as (acts1 & l1 & Ha1 & H1 & _).
      assert (R1 : yran K relaxed gc gs o gr (acts ++ acts1) y1 (l ++ l1)).
      { unfold yran in *. rewrite (sys_run_app _ _ _ _ _ _ R), H1. reflexivity. }
      destruct (IH _ P _ _ R1) as (acts2 & y2 & l2 & Ha2 & R2 & W2).
      exists (acts1 ++ acts2), y2, (l1 ++ l2). rewrite <- !app_assoc in R2.
      split; [apply Forall_app; auto|]. auto.
  Qed.
End Schedule.
