(** Properties of client logs, derived from the invariants. *)
From Coq Require Import List NArith Bool PeanoNat Lia ZifyBool ZifyNat ZifyN.
From Verif Require Import Base Types Codec Handle Receive ClientSend Client SpecFraming
  SpecClient ReceiveProofs ClientRecv ClientAbs ClientInv.
Import ListNotations.

Lemma last_snoc : forall {A} (l : list A) x d, last (l ++ [x]) d = x.
Proof.
  induction l as [|a l IH]; intros x d; [reflexivity|].
  cbn. rewrite IH. destruct (l ++ [x]) eqn:E; [destruct l; discriminate|reflexivity].
Qed.

Lemma cons_snoc_inv : forall {A} (l1 : list A) x l2 l3 y,
  l1 ++ x :: l2 = l3 ++ [y] ->
  (l2 = [] /\ x = y /\ l1 = l3) \/ (exists l2', l2 = l2' ++ [y] /\ l3 = l1 ++ x :: l2').
Proof.
  intros A l1 x l2 l3 y H. destruct l2 as [|z l2] using rev_ind.
  - apply app_inj_tail in H as [-> ->]. auto.
  - right. exists l2. rewrite app_comm_cons, app_assoc in H.
    apply app_inj_tail in H as [<- ->]. auto.
Qed.

Section Props.
  Variable K : Codecs.
  Variable relaxed : bool.

  Notation asteps := (asteps K relaxed).
  Notation astep := (astep K relaxed).

  (** A position in a log belongs to one step. *)
  Lemma asteps_split : forall a l a', asteps a l a' -> forall l1 x l2, l = l1 ++ x :: l2 ->
    exists l0 a1 p s a2 l3, asteps a l0 a1 /\ astep a1 (p ++ x :: s) a2 /\ asteps a2 l3 a' /\
      l1 = l0 ++ p /\ l2 = s ++ l3.
  Proof.
    induction 1 as [a|a l a1 ls a2 H IH H1]; intros l1 x l2 E.
    - destruct l1; discriminate.
    - apply app_prefix_cases in E as [[e [E1 E2]]|[e [E1 E2]]].
      + exists l, a1, e, l2, a2, []. rewrite app_nil_r. subst. repeat split; auto.
        constructor.
      + destruct e as [|y e]; cbn in E2.
        * rewrite app_nil_r in E1. subst l1.
          exists l, a1, [], l2, a2, []. rewrite !app_nil_r. cbn. rewrite E2.
          repeat split; auto. constructor.
        * injection E2 as <- ->. 
          destruct (IH l1 x e E1) as (l0 & a3 & p & s & a4 & l3 & A1 & A2 & A3 & -> & ->).
          exists l0, a3, p, s, a4, (l3 ++ ls). repeat split; auto.
          -- econstructor; eauto.
          -- now rewrite app_assoc.
  Qed.

  (** *** Greeting *)

  Lemma greetedb_app : forall l1 l2, greetedb (l1 ++ l2) = greetedb l1 || greetedb l2.
  Proof. intros. unfold greetedb. now rewrite events_app, existsb_app. Qed.

  Lemma asteps_greetedb : forall g l a, asteps (astate_new g) l a -> a_greeted a = greetedb l.
  Proof.
    intros g l a H. remember (astate_new g) as a00 eqn:E0.
    induction H as [a0|a0 l a1 l1 a2 H IH H1].
    - now subst.
    - specialize (IH E0). rewrite greetedb_app, <- IH.
      destruct H1 as [a cmd g0 h Hg|a x|a d s r H0|a s r H0|a s H0 H1|a s e H0 H1|a s b H0 H1
        |a H0 H1|a raw rest ls g0 H0 H1 H2|a raw rest ls q s H0 H1 H2 H3 H4
        |a raw rest ls m c' e H0 H1 H2 H3 H4|a raw rest v e H0 H1 H2]; cbn;
        rewrite ?orb_false_r, ?H0; auto.
  Qed.

  Lemma greetedb_spec : forall l, greetedb l = true <-> greeted l.
  Proof.
    intro l. unfold greetedb, greeted. rewrite existsb_exists. split.
    - intros (e & Hin & He). destruct e; try discriminate. eauto.
    - intros (g & Hin). eexists. split; [exact Hin|reflexivity].
  Qed.

  (** *** Frames *)

  Lemma asteps_frame : forall g l a l1 m l2,
    asteps (astate_new g) l a -> l = l1 ++ ClRx m :: l2 ->
    frame_verdict K relaxed (greetedb l1) m.
  Proof.
    intros g l a l1 m l2 H E.
    destruct (asteps_split _ _ _ H _ _ _ E) as (l0 & a1 & p & s & a2 & l3 & A1 & A2 & A3 & E1 & E2).
    pose proof (asteps_greetedb _ _ _ A1) as G.
    remember (p ++ _ :: s) as lb eqn:EE in A2;
    destruct A2 as [a1 cm g1 h1 Hg|a1 x1|a1 d1 s1 r1 HH|a1 s1 r1 HH|a1 s1 H0 H1|a1 s1 e1 H0 H1|a1 s1 b1 H0 H1
      |a1 Hset Hno|a1 raw1 rest ls gr H0 H1 H2|a1 raw1 rest ls q s1 H0 H1 H2 H3 H4
      |a1 raw1 rest ls m1 c1 e1 H0 H1 H2 H3 H4|a1 raw1 rest v e1 H0 H1 H2]; subst;
      try (destruct p as [|? [|? [|]]]; discriminate).
    - destruct p as [|y p]; cbn in EE.
      + injection EE as <- _. rewrite app_nil_r, <- G, H0. cbn. eauto.
      + injection EE as _ EE. destruct p as [|? [|]]; discriminate.
    - destruct p as [|y p]; cbn in EE.
      + injection EE as <- _. rewrite app_nil_r, <- G, H0. cbn. eauto.
      + destruct p; discriminate.
    - destruct p as [|y p]; cbn in EE.
      + injection EE as <- _. rewrite app_nil_r, <- G, H0. cbn. eauto.
      + injection EE as _ EE. destruct p as [|? [|]]; discriminate.
    - destruct p as [|y p]; cbn in EE.
      + injection EE as <- _. rewrite app_nil_r, <- G.
        unfold frame_verdict. cbn [crx_verdict crx_raw].
        destruct H2 as [(-> & _ & H2)|(-> & _ & H2)]; destruct (a_greeted a1); exact H2.
      + injection EE as _ EE. destruct p as [|? [|]]; discriminate.
  Qed.

  (** *** Reports *)

  Lemma astep_reports : forall a l a', astep a l a' -> reports l = false.
  Proof.
    intros a l a' H. destruct H as [| | | | |a s e H0 H1| | | | | |]; try reflexivity.
    destruct e; reflexivity.
  Qed.

  Lemma asteps_reports : forall a l a', asteps a l a' -> reports l = false.
  Proof.
    intros a l a' H. induction H as [a|a l a1 l1 a2 H IH H1]; [reflexivity|].
    destruct l as [|x l]; [cbn; eapply astep_reports; eauto|exact IH].
  Qed.

  Lemma asteps_follows : forall a0 l a l1 m l2,
    asteps a0 l a -> l = l1 ++ ClRx m :: l2 -> follows m l2.
  Proof.
    intros a0 l a l1 m l2 H E.
    destruct (asteps_split _ _ _ H _ _ _ E) as (l0 & a1 & p & s & a2 & l3 & A1 & A2 & A3 & E1 & E2).
    remember (p ++ _ :: s) as lb eqn:EE in A2;
    destruct A2 as [a1 cm g1 h1 Hg|a1 x1|a1 d1 s1 r1 HH|a1 s1 r1 HH|a1 s1 H0 H1|a1 s1 e1 H0 H1|a1 s1 b1 H0 H1
      |a1 Hset Hno|a1 raw1 rest ls gr H0 H1 H2|a1 raw1 rest ls q s1 H0 H1 H2 H3 H4
      |a1 raw1 rest ls m1 c1 e1 H0 H1 H2 H3 H4|a1 raw1 rest v e1 H0 H1 H2]; subst;
      try (destruct p as [|? [|? [|]]]; discriminate);
      (destruct p as [|y p]; cbn in EE;
       [injection EE; intros; subst; unfold follows; cbn|
        injection EE; intros; destruct p as [|? [|]]; discriminate]).
    - eauto.
    - right. exists q. split; [reflexivity|]. eapply asteps_reports; eauto.
    - left. exists e1, l3. split; [reflexivity|]. eapply handle_response_event; eauto.
    - destruct H2 as [(-> & -> & _)|(-> & -> & _)]; cbn; eauto.
  Qed.

  (** What precedes an event or error that reports input. *)
  Lemma asteps_event_before : forall a0 l a l1 e l2 r,
    asteps a0 l a -> l = l1 ++ ClNext (IEvent e) :: l2 -> reported e = Some r ->
    exists l0 raw, l1 = l0 ++ [ClRx (Crx raw (CvResponse r))].
  Proof.
    intros a0 l a l1 e l2 r H E Hr.
    destruct (asteps_split _ _ _ H _ _ _ E) as (l0 & a1 & p & s & a2 & l3 & A1 & A2 & A3 & E1 & E2).
    remember (p ++ _ :: s) as lb eqn:EE in A2;
    destruct A2 as [a1 cm g1 h1 Hg|a1 x1|a1 d1 s1 r1 HH|a1 s1 r1 HH|a1 s1 H0 H1|a1 s1 e1 H0 H1|a1 s1 b1 H0 H1
      |a1 Hset Hno|a1 raw1 rest ls gr H0 H1 H2|a1 raw1 rest ls q s1 H0 H1 H2 H3 H4
      |a1 raw1 rest ls m1 c1 e1 H0 H1 H2 H3 H4|a1 raw1 rest v e1 H0 H1 H2]; subst;
      destruct p as [|y [|y2 p]]; try discriminate; cbn in EE;
      try (injection EE; intros; destruct p; discriminate).
    - injection EE as <- _. destruct e1; discriminate.
    - injection EE as <- <- _. discriminate.
    - injection EE as <- -> <-. apply handle_response_event in H4 as [H4 _].
      rewrite Hr in H4. injection H4 as ->. eauto.
  Qed.

  Lemma asteps_greeting_before : forall a0 l a l1 g l2,
    asteps a0 l a -> l = l1 ++ ClNext (IEvent (CeGreetingReceived g)) :: l2 ->
    exists l0 raw, l1 = l0 ++ [ClRx (Crx raw (CvGreeting g))].
  Proof.
    intros a0 l a l1 g l2 H E.
    destruct (asteps_split _ _ _ H _ _ _ E) as (l0 & a1 & p & s & a2 & l3 & A1 & A2 & A3 & E1 & E2).
    remember (p ++ _ :: s) as lb eqn:EE in A2;
    destruct A2 as [a1 cm g1 h1 Hg|a1 x1|a1 d1 s1 r1 HH|a1 s1 r1 HH|a1 s1 H0 H1|a1 s1 e1 H0 H1|a1 s1 b1 H0 H1
      |a1 Hset Hno|a1 raw1 rest ls gr H0 H1 H2|a1 raw1 rest ls q s1 H0 H1 H2 H3 H4
      |a1 raw1 rest ls m1 c1 e1 H0 H1 H2 H3 H4|a1 raw1 rest v e1 H0 H1 H2]; subst;
      destruct p as [|y [|y2 p]]; try discriminate; cbn in EE;
      try (injection EE; intros; destruct p; discriminate).
    - injection EE as EE _. destruct e1; discriminate.
    - injection EE as <- -> _. eauto.
    - injection EE as <- -> _. apply handle_response_event in H4 as [_ H4].
      exfalso. now apply (H4 g).
  Qed.

  Lemma asteps_error_before : forall a0 l a l1 e l2,
    asteps a0 l a -> l = l1 ++ ClNext (IError e) :: l2 ->
    exists l0 raw v, l1 = l0 ++ [ClRx (Crx raw v)] /\
      ((v = CvMalformed /\ e = CerrMalformedMessage raw) \/
       (v = CvBareLf /\ e = CerrExpectedCrlfGotLf raw)).
  Proof.
    intros a0 l a l1 e l2 H E.
    destruct (asteps_split _ _ _ H _ _ _ E) as (l0 & a1 & p & s & a2 & l3 & A1 & A2 & A3 & E1 & E2).
    remember (p ++ _ :: s) as lb eqn:EE in A2;
    destruct A2 as [a1 cm g1 h1 Hg|a1 x1|a1 d1 s1 r1 HH|a1 s1 r1 HH|a1 s1 H0 H1|a1 s1 e1 H0 H1|a1 s1 b1 H0 H1
      |a1 Hset Hno|a1 raw1 rest ls gr H0 H1 H2|a1 raw1 rest ls q s1 H0 H1 H2 H3 H4
      |a1 raw1 rest ls m1 c1 e1 H0 H1 H2 H3 H4|a1 raw1 rest v e1 H0 H1 H2]; subst;
      destruct p as [|y [|y2 p]]; try discriminate; cbn in EE;
      try (injection EE; intros; destruct p; discriminate).
    injection EE as <- -> _. exists l0, raw1, v. split; [reflexivity|].
    destruct H2 as [(-> & -> & _)|(-> & -> & _)]; auto.
  Qed.

  (** *** Reactions *)

  Lemma conv_current : forall a l, conv_inv K a l ->
    current l = match cur_cmd (cs_current (a_send a)) with
                | x :: _ => Some x
                | [] => match cs_queue (a_send a) with x :: _ => Some x | [] => None end
                end.
  Proof.
    intros a l (dn & Henq & [Hlen _] & _). unfold current. rewrite Henq, <- Hlen.
    rewrite nth_error_app2, Nat.sub_diag by lia.
    destruct (cur_cmd (cs_current (a_send a))) as [|x xs]; [|reflexivity].
    cbn. destruct (cs_queue (a_send a)); reflexivity.
  Qed.

  Lemma rounds_last : forall h xs ds x0, rounds h xs ds ->
    last (map Some (x0 :: xs)) None = Some x0 \/
    exists d, last (map Some (x0 :: xs)) None = Some (XData h d).
  Proof.
    intros h xs ds x0 H. destruct H as [|xs ds q d H].
    - left. reflexivity.
    - right. exists d.
      replace (x0 :: xs ++ [XCont h q; XData h d]) with ((x0 :: xs ++ [XCont h q]) ++ [XData h d])
        by (cbn; now rewrite <- app_assoc).
      rewrite map_app. cbn [map]. apply last_snoc.
  Qed.

  Lemma last_cont : forall x0 (xs : list exch) y,
    last (map Some (x0 :: xs ++ [y])) None = Some y.
  Proof.
    intros. replace (x0 :: xs ++ [y]) with ((x0 :: xs) ++ [y]) by reflexivity.
    rewrite map_app. cbn [map]. apply last_snoc.
  Qed.

  Lemma reaction_resp : forall a l c' m e,
    conv_inv K a l -> waiting (a_send a) ->
    forall recv, client_handle_response (ClientSt (a_gen a) (a_send a) recv) m = (c', IEvent e) ->
    reaction (current l) (last_exch l) m = Some e.
  Proof.
    intros a l c' m e Hinv Hw recv H. rewrite (conv_current a l Hinv).
    destruct Hinv as (dn & _ & _ & Hok).
    unfold client_handle_response in H. cbn [c_send] in H. unfold waiting in Hw.
    unfold last_exch.
    destruct m as [st|d|q].
    - unfold cs_maybe_terminate in H. cbn [reaction].
      destruct (cs_current (a_send a)) as [[h c0 fs act|h ca act|h t act]|]; cbn [cur_cmd].
      + destruct Hok as ((p & Hp) & _). cbn. rewrite Hp.
        unfold is_tagged_bad.
        destruct st as [t b|b|cd tx]; try (injection H as <- <-; reflexivity).
        destruct (sb_kind b); cbn in H; try (injection H as <- <-; reflexivity).
        destruct (bytes_eqb t (ctag c0)); injection H as <- <-; reflexivity.
      + cbn. unfold is_tag.
        destruct st as [t b|b|cd tx]; try (injection H as <- <-; reflexivity).
        destruct (bytes_eqb t (ca_tag ca)); [|injection H as <- <-; reflexivity].
        destruct ca. destruct (sb_kind b); injection H as <- <-; reflexivity.
      + cbn. unfold is_tag.
        destruct st as [t' b|b|cd tx]; try (injection H as <- <-; reflexivity).
        destruct (bytes_eqb t' t); injection H as <- <-; reflexivity.
      + rewrite Hw. injection H as <- <-. reflexivity.
    - injection H as <- <-. reflexivity.
    - unfold cs_literal_continue in H. cbn [reaction].
      destruct (cs_current (a_send a)) as [[h c0 fs act|h ca act|h t act]|] eqn:Ecur; cbn [cur_cmd].
      + destruct act; try contradiction. discriminate.
      + cbn [cbody command_of_authenticate].
        unfold cs_authenticate_continue, cs_idle_continue in H. rewrite Ecur in H.
        destruct Hok as (_ & line & Hl & Hok).
        destruct act; try contradiction.
        * injection H as <- <-. destruct Hok as (xs & ds & lines & Hr & _ & _ & Hx).
          rewrite Hx, app_nil_r.
          destruct (rounds_last h xs ds (XStarted h) Hr) as [->|[d ->]]; reflexivity.
        * rewrite Ecur in H. injection H as <- <-. destruct Hok as (q0 & xs & ds & lines & Hr & _ & _ & Hx).
          rewrite Hx, last_cont. reflexivity.
      + cbn [cbody].
        unfold cs_authenticate_continue, cs_idle_continue in H. rewrite Ecur in H.
        rewrite Ecur in H.
        destruct Hok as (_ & line & Hl & Hok).
        destruct act; try contradiction; injection H as <- <-.
        * destruct Hok as (_ & Hx). rewrite Hx. reflexivity.
        * destruct Hok as (_ & q0 & Hx). rewrite Hx. reflexivity.
      + rewrite Hw. unfold cs_authenticate_continue, cs_idle_continue in H. rewrite !Ecur in H.
        injection H as <- <-. reflexivity.
  Qed.

  Lemma reaction_release : forall a l q s,
    conv_inv K a l -> cs_literal_continue (a_send a) = (s, true) ->
    reaction (current l) (last_exch l) (RCcr q) = None.
  Proof.
    intros a l q s Hinv H. rewrite (conv_current a l Hinv).
    destruct Hinv as (dn & _ & _ & Hok). unfold cs_literal_continue in H.
    destruct (cs_current (a_send a)) as [[h c0 fs act|h ca act|h t act]|]; try discriminate.
    destruct act; try discriminate. cbn [cur_cmd reaction].
    destruct Hok as ((p & Hp) & _). now rewrite Hp.
  Qed.

  Lemma asteps_reaction : forall g l a l1 raw r l2,
    asteps (astate_new g) l a -> l = l1 ++ ClRx (Crx raw (CvResponse r)) :: l2 ->
    match reaction (current l1) (last_exch l1) r with
    | Some e => exists l3, l2 = ClNext (IEvent e) :: l3
    | None => reports l2 = false
    end.
  Proof.
    intros g l a l1 raw r l2 H E.
    destruct (asteps_split _ _ _ H _ _ _ E) as (l0 & a1 & p & s & a2 & l3 & A1 & A2 & A3 & E1 & E2).
    pose proof (asteps_conv K relaxed _ _ _ A1) as C.
    remember (p ++ _ :: s) as lb eqn:EE in A2;
    destruct A2 as [a1 cm g1 h1 Hg|a1 x1|a1 d1 s1 r1 HH|a1 s1 r1 HH|a1 s1 H0 H1|a1 s1 e1 H0 H1|a1 s1 b1 H0 H1
      |a1 Hset Hno|a1 raw1 rest ls gr H0 H1 H2|a1 raw1 rest ls q s1 H0 H1 H2 H3 H4
      |a1 raw1 rest ls m1 c1 e1 H0 H1 H2 H3 H4|a1 raw1 rest v e1 H0 H1 H2]; subst;
      try (destruct p as [|? [|? [|]]]; discriminate);
      (destruct p as [|y p]; cbn in EE;
       [|injection EE; intros; destruct p as [|? [|]]; discriminate]).
    - injection EE as _ <- <-. rewrite app_nil_r.
      rewrite (reaction_release _ _ q _ C H4). eapply asteps_reports; eauto.
    - injection EE as _ -> <-. rewrite app_nil_r.
      rewrite (reaction_resp _ _ _ _ _ C (settled_waiting _ _ (H1 H0)) _ H4). cbn. eauto.
    - injection EE as _ -> <-.
      destruct H2 as [(E2 & _)|(E2 & _)]; discriminate.
  Qed.

  (** *** Accepted and refused calls *)

  Lemma asteps_setauth : forall g l a l1 d r l2,
    asteps (astate_new g) l a -> l = l1 ++ ClSetAuth d r :: l2 ->
    r = match last_exch l1 with Some (XCont h _) => inl h | _ => inr d end.
  Proof.
    intros g l a l1 d r l2 H E.
    destruct (asteps_split _ _ _ H _ _ _ E) as (l0 & a1 & p & s & a2 & l3 & A1 & A2 & A3 & E1 & E2).
    pose proof (asteps_conv K relaxed _ _ _ A1) as (dn & _ & _ & Hok).
    remember (p ++ _ :: s) as lb eqn:EE in A2;
    destruct A2 as [a1 cm g1 h1 Hg|a1 x1|a1 d1 s1 r1 HH|a1 s1 r1 HH|a1 s1 H0 H1|a1 s1 e1 H0 H1|a1 s1 b1 H0 H1
      |a1 Hset Hno|a1 raw1 rest ls gr H0 H1 H2|a1 raw1 rest ls q s1 H0 H1 H2 H3 H4
      |a1 raw1 rest ls m1 c1 e1 H0 H1 H2 H3 H4|a1 raw1 rest v e1 H0 H1 H2]; subst;
      try (destruct p as [|? [|? [|]]]; discriminate).
    destruct p as [|y p]; cbn in EE; [|injection EE; intros; destruct p; discriminate].
    injection EE as -> -> <-. rewrite app_nil_r. unfold last_exch.
    unfold cs_set_authenticate_data in HH.
    destruct (cs_current (a_send a1)) as [[h c0 fs act|h ca act|h t act]|]; cbn in Hok.
    - injection HH as <- <-. destruct Hok as (_ & -> & _). reflexivity.
    - destruct Hok as (_ & line & _ & Hok).
      destruct act; try (injection HH as <- <-).
      + destruct Hok as (_ & _ & ->). reflexivity.
      + destruct Hok as (_ & ->). reflexivity.
      + destruct Hok as (xs & ds & lines & Hr & _ & _ & ->). rewrite app_nil_r.
        destruct (rounds_last h xs ds (XStarted h) Hr) as [->|[d0 ->]]; reflexivity.
      + destruct Hok as (q & xs & ds & lines & Hr & _ & _ & ->). rewrite last_cont.
        unfold single_line in HH.
        destruct (enc_authdata K d) as [|[x|] [|]]; try discriminate.
        cbn in HH. injection HH as <- <-. reflexivity.
      + destruct Hok as (q & d0 & _ & xs & ds & lines & Hr & _ & _ & ->).
        replace (xs ++ [XCont h q; XData h d0]) with ((xs ++ [XCont h q]) ++ [XData h d0])
          by (now rewrite <- app_assoc).
        rewrite last_cont. reflexivity.
      + destruct Hok as (xs & ds & lines & Hr & _ & _ & ->). rewrite app_nil_r.
        destruct (rounds_last h xs ds (XStarted h) Hr) as [->|[d0 ->]]; reflexivity.
    - injection HH as <- <-. destruct Hok as (_ & line & _ & Hok).
      destruct act.
      + destruct Hok as (_ & _ & ->). reflexivity.
      + destruct Hok as (_ & ->). reflexivity.
      + destruct Hok as (_ & ->). reflexivity.
      + destruct Hok as (_ & q & ->). reflexivity.
      + destruct Hok as (_ & _ & q & ->). reflexivity.
      + destruct Hok as (dn0 & q & _ & _ & ->). reflexivity.
    - injection HH as <- <-. destruct Hok as (_ & -> & _). reflexivity.
  Qed.

  Lemma asteps_setdone : forall g l a l1 r l2,
    asteps (astate_new g) l a -> l = l1 ++ ClSetDone r :: l2 ->
    r = match last_exch l1 with Some (XAccepted h _) => Some h | _ => None end.
  Proof.
    intros g l a l1 r l2 H E.
    destruct (asteps_split _ _ _ H _ _ _ E) as (l0 & a1 & p & s & a2 & l3 & A1 & A2 & A3 & E1 & E2).
    pose proof (asteps_conv K relaxed _ _ _ A1) as (dn & _ & _ & Hok).
    remember (p ++ _ :: s) as lb eqn:EE in A2;
    destruct A2 as [a1 cm g1 h1 Hg|a1 x1|a1 d1 s1 r1 HH|a1 s1 r1 HH|a1 s1 H0 H1|a1 s1 e1 H0 H1|a1 s1 b1 H0 H1
      |a1 Hset Hno|a1 raw1 rest ls gr H0 H1 H2|a1 raw1 rest ls q s1 H0 H1 H2 H3 H4
      |a1 raw1 rest ls m1 c1 e1 H0 H1 H2 H3 H4|a1 raw1 rest v e1 H0 H1 H2]; subst;
      try (destruct p as [|? [|? [|]]]; discriminate).
    destruct p as [|y p]; cbn in EE; [|injection EE; intros; destruct p; discriminate].
    injection EE as -> <-. rewrite app_nil_r. unfold last_exch.
    unfold cs_set_idle_done in HH.
    destruct (cs_current (a_send a1)) as [[h c0 fs act|h ca act|h t act]|]; cbn in Hok.
    - injection HH as <- <-. destruct Hok as (_ & -> & _). reflexivity.
    - injection HH as <- <-. destruct Hok as (_ & line & _ & Hok).
      destruct act.
      + destruct Hok as (_ & _ & ->). reflexivity.
      + destruct Hok as (_ & ->). reflexivity.
      + destruct Hok as (xs & ds & lines & Hr & _ & _ & ->). rewrite app_nil_r.
        destruct (rounds_last h xs ds (XStarted h) Hr) as [->|[d0 ->]]; reflexivity.
      + destruct Hok as (q & xs & ds & lines & Hr & _ & _ & ->). rewrite last_cont. reflexivity.
      + destruct Hok as (q & d0 & _ & xs & ds & lines & Hr & _ & _ & ->).
        replace (xs ++ [XCont h q; XData h d0]) with ((xs ++ [XCont h q]) ++ [XData h d0])
          by (now rewrite <- app_assoc).
        rewrite last_cont. reflexivity.
      + destruct Hok as (xs & ds & lines & Hr & _ & _ & ->). rewrite app_nil_r.
        destruct (rounds_last h xs ds (XStarted h) Hr) as [->|[d0 ->]]; reflexivity.
    - destruct Hok as (_ & line & _ & Hok).
      destruct act; try (injection HH as <- <-).
      + destruct Hok as (_ & _ & ->). reflexivity.
      + destruct Hok as (_ & ->). reflexivity.
      + destruct Hok as (_ & ->). reflexivity.
      + destruct Hok as (_ & q & ->). unfold single_line in HH.
        destruct (enc_idledone K) as [|[x|] [|]]; try discriminate.
        cbn in HH. injection HH as <- <-. reflexivity.
      + destruct Hok as (_ & _ & q & ->). reflexivity.
      + destruct Hok as (dn0 & q & _ & _ & ->). reflexivity.
    - injection HH as <- <-. destruct Hok as (_ & -> & _). reflexivity.
  Qed.

  (** *** Conversations *)

  Lemma quiet_app : forall seg x, quiet x ->
    outputs (seg ++ x) = outputs seg /\ exchange (seg ++ x) = exchange seg /\
    silent (seg ++ x) = silent seg.
  Proof.
    intros seg x (Ho & Hx & Hs & Hr). rewrite outputs_app, exchange_app, silent_app, Ho, Hx, Hs
      by assumption. rewrite !app_nil_r. auto.
  Qed.

  Lemma conv_done : forall a l k h c, conv_inv K a l ->
    nth_error (enqueued l) k = Some (h, c) -> k < length (terminals l) ->
    exists t, nth_error (terminals l) k = Some t /\
      conversation K h c (outputs (segment k l)) (exchange (segment k l)) (silent (segment k l)) t /\
      (regular c -> all_agreed K c (segment k l)).
  Proof.
    intros a l k h c (dn & Henq & [Hlen Hres] & _) Hk Hlt.
    rewrite Henq, nth_error_app1 in Hk by lia.
    destruct (Hres k h c Hk) as (t & seg & x & Ht & Hs & Hx & Hq & Hcv & Hag).
    exists t. split; [assumption|]. rewrite Hs.
    destruct (quiet_app seg x Hq) as (-> & -> & ->). split; [assumption|].
    intros Hr pre d post E Hl.
    destruct (quiet_app seg x Hq) as (Eo & _ & _). rewrite Eo in Hl.
    destruct (Hag Hr pre d post E Hl) as (s1 & raw & q & s2 & -> & Ho).
    exists s1, raw, q, (s2 ++ x). rewrite <- app_assoc. auto.
  Qed.

  Lemma conv_terminals_le : forall a l, conv_inv K a l -> length (terminals l) <= length (enqueued l).
  Proof. intros a l (dn & Henq & [Hlen _] & _). rewrite Henq, app_length. lia. Qed.

  Lemma cur_ok_conversing : forall cur seg h c,
    cur_ok K cur seg -> cur_cmd cur = [(h, c)] \/ cur = None ->
    conversing K h c (outputs seg) (exchange seg) (silent seg) /\
    (regular c -> all_agreed K c seg).
  Proof.
    intros cur seg h c Hok Hc.
    destruct cur as [[h0 c0 fs act|h0 ca act|h0 t act]|]; cbn in Hok.
    - destruct Hc as [Hc|Hc]; [|discriminate]. injection Hc as -> ->.
      destruct Hok as (Hr & -> & pre & Ho & Hc & Hs & Ha). rewrite Hs. split.
      + rewrite Ho. destruct act as [[lit|]|[lit|]|lit]; cbn [act_limbo lit_of app] in Hc;
          try (rewrite Nat.add_0_r; eapply cg_regular; eauto; fail).
        rewrite Nat.add_comm. eapply cg_released; eauto.
      + intros _. eapply agreed_all; eauto.
        destruct act as [[lit|]|[lit|]|lit]; try exact Ha.
        * eapply agreed_le; [|exact Ha]. lia.
        * apply Ha.
    - destruct Hc as [Hc|Hc]; [|discriminate]. injection Hc as -> <-.
      split; [|intros (p & Hp); discriminate].
      destruct Hok as (-> & line & Hl & Hok).
      destruct act.
      + destruct Hok as (_ & -> & ->). apply cg_nothing.
      + destruct Hok as (-> & ->). eapply cg_auth_sending; eauto.
      + destruct Hok as (xs & ds & lines & Hr & Hm & -> & ->). eapply cg_auth; eauto.
      + destruct Hok as (q & xs & ds & lines & Hr & Hm & -> & ->). eapply cg_auth; eauto.
      + destruct Hok as (q & d & Hd & xs & ds & lines & Hr & Hm & -> & ->).
        eapply cg_auth; eauto. right. right. eauto.
      + destruct Hok as (xs & ds & lines & Hr & Hm & -> & ->). eapply cg_auth; eauto.
    - destruct Hc as [Hc|Hc]; [|discriminate]. injection Hc as -> <-.
      split; [|intros (p & Hp); discriminate].
      destruct Hok as (-> & line & Hl & Hok).
      destruct act.
      + destruct Hok as (_ & -> & ->). apply cg_nothing.
      + destruct Hok as (-> & ->). eapply cg_idle; eauto.
      + destruct Hok as (-> & ->). eapply cg_idle; eauto.
      + destruct Hok as (-> & q & ->). eapply cg_idle; eauto 6.
      + destruct Hok as (_ & -> & q & ->). eapply cg_idle; eauto 6.
      + destruct Hok as (dn0 & q & Hd & -> & ->). eapply cg_idle_done; eauto.
    - destruct Hok as (Ho & -> & ->). split.
      + rewrite Ho. apply cg_nothing.
      + intros _ pre d post _ Hl. rewrite Ho in Hl. cbn in Hl. lia.
  Qed.

  Lemma conv_current_conversing : forall a l h c, conv_inv K a l ->
    current l = Some (h, c) ->
    conversing K h c (outputs (cur_seg l)) (exchange (cur_seg l)) (silent (cur_seg l)) /\
    (regular c -> all_agreed K c (cur_seg l)).
  Proof.
    intros a l h c Hinv Hc. pose proof Hinv as (dn & _ & _ & Hok).
    rewrite (conv_current a l Hinv) in Hc.
    apply (cur_ok_conversing _ _ h c Hok).
    destruct (cs_current (a_send a)) as [[h0 c0 fs act|h0 ca act|h0 t act]|]; auto;
      left; cbn in *; now injection Hc as -> ->.
  Qed.

  Lemma conv_no_current : forall a l, conv_inv K a l -> current l = None ->
    outputs (cur_seg l) = [] /\ exchange (cur_seg l) = [] /\ silent (cur_seg l) = 0.
  Proof.
    intros a l Hinv Hc. pose proof Hinv as (dn & _ & _ & Hok).
    rewrite (conv_current a l Hinv) in Hc.
    destruct (cs_current (a_send a)) as [[h0 c0 fs act|h0 ca act|h0 t act]|]; try discriminate.
    exact Hok.
  Qed.

  Lemma outputs_segments : forall l,
    outputs l = concat (map (fun k => outputs (segment k l)) (seq 0 (S (length (terminals l))))).
  Proof.
    induction l as [|e l IH]; [reflexivity|].
    rewrite terminals_length_cons.
    assert (Eo : forall x y, outputs (x :: y) = outputs [x] ++ outputs y).
    { intros x y. change (x :: y) with ([x] ++ y). apply outputs_app. }
    destruct (ends_segment e) eqn:E.
    - assert (O0 : outputs [e] = []).
      { destruct e as [| | | | | [[]| | | | | |]|]; try reflexivity; discriminate. }
      rewrite Eo, O0. cbn [app]. rewrite IH.
      change (S (1 + length (terminals l))) with (S (S (length (terminals l)))).
      change (seq 0 (S (S (length (terminals l))))) with (0 :: seq 1 (S (length (terminals l)))).
      rewrite map_cons, concat_cons. cbn [segment]. rewrite E, O0. cbn [app].
      rewrite <- seq_shift, map_map. f_equal.
    - cbn [Nat.add seq map concat segment]. rewrite E.
      rewrite Eo. rewrite (Eo e (segment 0 l)), <- app_assoc. f_equal.
      rewrite IH at 1. cbn [seq map concat]. f_equal. f_equal.
      apply map_ext_in. intros k Hk. apply in_seq in Hk. destruct k; [lia|].
      reflexivity.
  Qed.

  (** *** Need more input *)

  Lemma waiting_stuck : forall a l, conv_inv K a l -> waiting (a_send a) ->
    match current l with
    | None => length (terminals l) = length (enqueued l)
    | Some (h, c) => stuck K h c (outputs (cur_seg l)) (exchange (cur_seg l)) (silent (cur_seg l))
    end.
  Proof.
    intros a l Hinv Hw. rewrite (conv_current a l Hinv).
    pose proof Hinv as (dn & Henq & [Hlen _] & Hok).
    unfold waiting in Hw.
    destruct (cs_current (a_send a)) as [[h0 c0 fs act|h0 ca act|h0 t act]|]; cbn [cur_cmd].
    - destruct act; try contradiction.
      destruct Hok as (Hr & -> & pre & Ho & Hc & Hs & Ha).
      rewrite Nat.add_0_r in Hs. rewrite Hs, Ho. eapply st_literal; [assumption|exact Hc].
    - destruct Hok as (-> & line & Hl & Hok). destruct act; try contradiction.
      + destruct Hok as (xs & ds & lines & Hr & Hm & -> & ->). eapply st_auth; eauto.
      + destruct Hok as (q & xs & ds & lines & Hr & Hm & -> & ->). eapply st_auth; eauto.
    - destruct Hok as (-> & line & Hl & Hok). destruct act; try contradiction.
      + destruct Hok as (-> & ->). eapply st_idle; eauto.
      + destruct Hok as (-> & q & ->). eapply st_idle; eauto.
    - rewrite Hw in *. rewrite Henq, app_length. cbn. lia.
  Qed.

  Lemma asteps_needmore : forall g l a l1 l2,
    asteps (astate_new g) l a -> l = l1 ++ ClNext INeedMore :: l2 ->
    (greeted l1 ->
     match current l1 with
     | None => length (terminals l1) = length (enqueued l1)
     | Some (h, c) => stuck K h c (outputs (cur_seg l1)) (exchange (cur_seg l1)) (silent (cur_seg l1))
     end) /\
    exists unread, inputs l1 = concat (map crx_raw (taken l1)) ++ unread /\
      (greeted l1 -> ~ has_message (dec_response K) relaxed accept_any unread) /\
      (~ greeted l1 -> ~ has_message (dec_greeting K) relaxed accept_none unread).
  Proof.
    intros g l a l1 l2 H E.
    destruct (asteps_split _ _ _ H _ _ _ E) as (l0 & a1 & p & s & a2 & l3 & A1 & A2 & A3 & E1 & E2).
    pose proof (asteps_conv K relaxed _ _ _ A1) as C.
    pose proof (asteps_partition K relaxed _ _ _ A1) as P. cbn in P.
    pose proof (asteps_greetedb _ _ _ A1) as G.
    remember (p ++ _ :: s) as lb eqn:EE in A2;
    destruct A2 as [a1 cm g1 h1 Hg|a1 x1|a1 d1 s1 r1 HH|a1 s1 r1 HH|a1 s1 H0 H1|a1 s1 e1 H0 H1|a1 s1 b1 H0 H1
      |a1 Hset Hno|a1 raw1 rest ls gr H0 H1 H2|a1 raw1 rest ls q s1 H0 H1 H2 H3 H4
      |a1 raw1 rest ls m1 c1 e1 H0 H1 H2 H3 H4|a1 raw1 rest v e1 H0 H1 H2]; subst;
      try (destruct p as [|? [|? [|]]]; discriminate).
    destruct p as [|y p]; cbn in EE; [|injection EE; intros; destruct p; discriminate].
    injection EE as <-. rewrite app_nil_r.
    assert (G' : greeted l0 <-> a_greeted a1 = true) by (rewrite G; symmetry; apply greetedb_spec).
    split.
    - intro Hg. apply G' in Hg. apply (waiting_stuck _ _ C). eapply settled_waiting. now apply Hset.
    - exists (a_buf a1). split; [exact P|]. unfold a_no_message in Hno.
      destruct (a_greeted a1); split; intro X; try exact Hno; exfalso.
      + apply X, G'. reflexivity.
      + apply G' in X. discriminate.
  Qed.
End Props.
