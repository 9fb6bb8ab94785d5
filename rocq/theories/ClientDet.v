(** The transition system of the client is deterministic and only looks at its input when
    it needs it: independence of chunking, termination, absence of panics. *)
From Coq Require Import List NArith Bool PeanoNat Lia ZifyBool ZifyNat ZifyN.
From Verif Require Import Base Types Codec Handle Receive ClientSend Client SpecFraming
  SpecClient SpecDrive ReceiveProofs ClientRecv ClientAbs ClientInv.
Import ListNotations.

Definition a_add (a : astate) (x : bytes) : astate := a_set_buf a (a_buf a ++ x).

Lemma a_add_nil : forall a, a_add a [] = a.
Proof. intros []. unfold a_add, a_set_buf. cbn. now rewrite app_nil_r. Qed.

Lemma a_add_add : forall a x y, a_add (a_add a x) y = a_add a (x ++ y).
Proof. intros []; intros. unfold a_add, a_set_buf. cbn. now rewrite app_assoc. Qed.

Lemma handle_response_recv : forall g s r1 r2 m c' ir,
  client_handle_response (ClientSt g s r1) m = (c', ir) ->
  client_handle_response (ClientSt g s r2) m = (ClientSt g (c_send c') r2, ir).
Proof.
  intros g s r1 r2 m c' ir H. unfold client_handle_response in *. cbn [c_send] in *.
  destruct m as [st|d|q].
  - destruct (cs_maybe_terminate s st) as [s1 [[]|]]; injection H as <- <-; reflexivity.
  - injection H as <- <-; reflexivity.
  - destruct (cs_literal_continue s) as [s1 [|]]; [injection H as <- <-; reflexivity|].
    destruct (cs_authenticate_continue s1) as [s2 [h|]]; [injection H as <- <-; reflexivity|].
    destruct (cs_idle_continue s2) as [s3 [h|]]; injection H as <- <-; reflexivity.
Qed.

(** Labels of steps made by [next]. *)
Definition next_label (l : list clog) : Prop :=
  (exists r, l = [ClNext r]) \/ (exists m r, l = [ClRx m; ClNext r]) \/ (exists m, l = [ClRx m]).

Section Det.
  Variable K : Codecs.
  Variable relaxed : bool.

  Notation astep := (astep K relaxed).
  Notation asteps := (asteps K relaxed).
  Notation anext := (anext K relaxed).
  Notation quiesce := (quiesce K).
  Notation asettled := (asettled K).
  Notation gframed := (framed (dec_greeting K) relaxed no_literal).
  Notation rframed := (framed (dec_response K) relaxed client_accept).

  Lemma quiesce_add : forall a x, quiesce (a_add a x) = a_add (quiesce a) x.
  Proof.
    intros a x. unfold ClientAbs.quiesce, a_add, a_set_buf, a_set_send. cbn.
    destruct (a_greeted a) eqn:G; [|now rewrite G].
    destruct (cs_next K (a_send a)) as [s [[e|]|b|]]; cbn; rewrite ?G; reflexivity.
  Qed.

  Lemma quiesce_settled : forall a, asettled (quiesce a) \/
    (a_greeted a = true /\ quiesce a = a /\
     match snd (cs_next K (a_send a)) with CsOk None => False | _ => True end).
  Proof.
    intro a. unfold ClientAbs.quiesce. destruct (a_greeted a) eqn:G.
    - destruct (cs_next K (a_send a)) as [s [[e|]|b|]] eqn:E.
      + right. cbn. auto.
      + left. intros _. cbn. eapply cs_next_settled; eauto.
      + right. cbn. auto.
      + right. cbn. auto.
    - left. intro X. congruence.
  Qed.

  (** *** More input *)

  Lemma astep_add : forall a l a' x, next_label l -> astep a l a' -> l <> [ClNext INeedMore] ->
    astep (a_add a x) l (a_add a' x).
  Proof.
    intros a l a' x Hl H Hn.
    destruct H as [a cm g1 h1 Hg|a x1|a d1 s1 r1 HH|a s1 r1 HH|a s1 H0 H1|a s1 e1 H0 H1|a s1 b1 H0 H1
      |a Hset Hno|a raw1 rest ls gr H0 H1 H2|a raw1 rest ls q s1 H0 H1 H2 H3 H4
      |a raw1 rest ls m1 c1 e1 H0 H1 H2 H3 H4|a raw1 rest v e1 H0 H1 H2];
      try (destruct Hl as [(?&?)|[(?&?&?)|(?&?)]]; discriminate).
    - exact (a_event K relaxed (a_add a x) s1 e1 H0 H1).
    - exact (a_output K relaxed (a_add a x) s1 b1 H0 H1).
    - congruence.
    - unfold a_add, a_set_buf. cbn.
      eapply (a_greet K relaxed (AState (a_gen a) (a_send a) (a_greeted a) (a_buf a ++ x)));
        eauto. cbn. now rewrite H1, <- app_assoc.
    - unfold a_add, a_set_buf. cbn.
      eapply (a_release K relaxed (AState (a_gen a) (a_send a) (a_greeted a) (a_buf a ++ x)));
        eauto. cbn. now rewrite H2, <- app_assoc.
    - unfold a_add, a_set_buf. cbn.
      pose proof (handle_response_recv _ _ _ (CrResponse (fresh relaxed None (rest ++ x))) _ _ _ H4) as H5.
      eapply (a_resp K relaxed (AState (a_gen a) (a_send a) (a_greeted a) (a_buf a ++ x))
        raw1 (rest ++ x)) in H5; eauto. cbn. now rewrite H2, <- app_assoc.
    - unfold a_add, a_set_buf. cbn.
      eapply (a_bad K relaxed (AState (a_gen a) (a_send a) (a_greeted a) (a_buf a ++ x)) raw1 (rest ++ x));
        eauto. cbn. now rewrite H1, <- app_assoc.
  Qed.

  Lemma a_panics_add : forall a x, a_panics K relaxed a -> a_panics K relaxed (a_add a x).
  Proof.
    intros a x [(Hs & raw & rest & Hb & H)|H]; [left|right; exact H].
    split; [exact Hs|]. exists raw, (rest ++ x). unfold a_add. cbn.
    rewrite Hb, <- app_assoc. auto.
  Qed.

  Lemma anext_add : forall a g r a' x, anext a g r a' -> r <> INeedMore ->
    anext (a_add a x) g r (a_add a' x).
  Proof.
    intros a g r a' x H Hn.
    induction H as [a r a' H|a m r a' H|a m a1 g r a' H H2 IH|a a' H].
    - apply an_send. rewrite quiesce_add. apply astep_add; auto.
      + left. eauto.
      + congruence.
    - apply an_recv. rewrite quiesce_add. apply astep_add; auto.
      + right. left. eauto.
      + congruence.
    - eapply an_again; [|apply IH, Hn]. rewrite quiesce_add. apply astep_add; auto.
      + right. right. eauto.
      + congruence.
    - apply an_stuck. rewrite quiesce_add. now apply a_panics_add.
  Qed.

  Lemma anext_quiesce : forall a b g r a', quiesce a = quiesce b -> anext a g r a' -> anext b g r a'.
  Proof.
    intros a b g r a' E H.
    destruct H as [a r a' H|a m r a' H|a m a1 g r a' H H2|a a' H]; rewrite E in H.
    - now apply an_send.
    - now apply an_recv.
    - eapply an_again; eauto.
    - now apply an_stuck.
  Qed.

  Lemma anext_need_more : forall a g r1 a' x g2 r a2,
    anext a g r1 a' -> r1 = INeedMore -> anext (a_add a' x) g2 r a2 ->
    anext (a_add a x) (g ++ g2) r a2.
  Proof.
    intros a g r1 a' x g2 r a2 H E H2.
    induction H as [a r1 a' H|a m r1 a' H|a m a1 g r1 a' H _ IH|a a' H]; try discriminate.
    - subst r1. remember [ClNext INeedMore] as lb eqn:EL in H.
      remember (quiesce a) as b eqn:Eb in H.
      destruct H; try discriminate; try (injection EL as EL; discriminate). subst.
      eapply anext_quiesce; [|exact H2].
      rewrite !quiesce_add. now rewrite quiesce_idem.
    - subst r1. remember [ClRx m; ClNext INeedMore] as lb eqn:EL in H.
      destruct H; try discriminate.
    - eapply an_again; [|apply IH; auto]. rewrite quiesce_add. apply astep_add; auto.
      + right. right. eauto.
      + congruence.
  Qed.

  (** *** Determinism *)

  Lemma framed_det : forall {M L} (dec : bytes -> dec_result M L) acc raw1 rest1 ls1 o1 raw2 rest2 ls2 o2 b,
    framed dec relaxed acc raw1 ls1 o1 -> framed dec relaxed acc raw2 ls2 o2 ->
    b = raw1 ++ rest1 -> b = raw2 ++ rest2 ->
    raw1 = raw2 /\ rest1 = rest2 /\ o1 = o2.
  Proof.
    intros M L dec acc raw1 rest1 ls1 o1 raw2 rest2 ls2 o2 b H1 H2 E1 E2. subst b.
    destruct (scan_det dec relaxed acc [] raw1 ls1 o1 H1 raw2 ls2 o2 rest1 rest2 H2 E2)
      as (E & _ & Eo).
    subst raw2. apply app_inv_head in E2. auto.
  Qed.

  (** Receive side: what the first frame is. *)
  Inductive aframe (a : astate) : bytes -> bytes -> outcome response N + outcome greeting Empty_set -> Prop :=
  | af_response : forall raw rest ls o, a_greeted a = true -> a_buf a = raw ++ rest ->
      rframed raw ls o -> aframe a raw rest (inl o)
  | af_greeting : forall raw rest ls o, a_greeted a = false -> a_buf a = raw ++ rest ->
      gframed raw ls o -> aframe a raw rest (inr o).

  Lemma aframe_det : forall a raw1 rest1 o1 raw2 rest2 o2,
    aframe a raw1 rest1 o1 -> aframe a raw2 rest2 o2 -> raw1 = raw2 /\ rest1 = rest2 /\ o1 = o2.
  Proof.
    intros a raw1 rest1 o1 raw2 rest2 o2 H1 H2.
    destruct H1 as [raw1 rest1 ls1 o1 G1 B1 F1|raw1 rest1 ls1 o1 G1 B1 F1];
      destruct H2 as [raw2 rest2 ls2 o2 G2 B2 F2|raw2 rest2 ls2 o2 G2 B2 F2]; try congruence;
      destruct (framed_det _ _ _ _ _ _ _ _ _ _ _ F1 F2 B1 B2) as (-> & -> & ->); auto.
  Qed.

  Lemma aframe_message : forall a raw rest o, aframe a raw rest o -> ~ a_no_message K relaxed a.
  Proof.
    intros a raw rest o H N. unfold a_no_message in N.
    destruct H as [raw rest ls o G B F|raw rest ls o G B F]; rewrite G in N;
      apply N; exists raw, rest, ls, o; auto.
  Qed.

  (** Effect of a frame. *)
  Definition frame_effect (a : astate) (raw rest : bytes) (o : outcome response N + outcome greeting Empty_set)
    : option (list clog * astate) :=
    match o with
    | inl (OMsg m) =>
        match client_handle_response (ClientSt (a_gen a) (a_send a) CrDummy) m with
        | (c', IEvent e) => Some ([ClRx (Crx raw (CvResponse m)); ClNext (IEvent e)],
                                  AState (a_gen a) (c_send c') true rest)
        | (c', _) => Some ([ClRx (Crx raw (CvResponse m))], AState (a_gen a) (c_send c') true rest)
        end
    | inr (OMsg g) => Some ([ClRx (Crx raw (CvGreeting g)); ClNext (IEvent (CeGreetingReceived g))],
                            AState (a_gen a) (a_send a) true rest)
    | inl OMalformed | inr OMalformed =>
        Some ([ClRx (Crx raw CvMalformed); ClNext (IError (CerrMalformedMessage raw))], a_set_buf a rest)
    | inl OBareLf | inr OBareLf =>
        Some ([ClRx (Crx raw CvBareLf); ClNext (IError (CerrExpectedCrlfGotLf raw))], a_set_buf a rest)
    | _ => None
    end.

  Lemma astep_cases : forall a l a', next_label l -> astep a l a' ->
    (a_greeted a = true /\ exists e, cs_next K (a_send a) = (a_send a', CsOk (Some e)) /\
       l = [ClNext (IEvent (cs_event_ev e))] /\ a' = a_set_send a (a_send a')) \/
    (a_greeted a = true /\ exists b, cs_next K (a_send a) = (a_send a', CsOutput b) /\
       l = [ClNext (IOutput b)] /\ a' = a_set_send a (a_send a')) \/
    (asettled a /\ a_no_message K relaxed a /\ l = [ClNext INeedMore] /\ a' = a) \/
    (asettled a /\ exists raw rest o, aframe a raw rest o /\ frame_effect a raw rest o = Some (l, a')).
  Proof.
    intros a l a' Hl H.
    destruct H as [a cm g1 h1 Hg|a x1|a d1 s1 r1 HH|a s1 r1 HH|a s1 H0 H1|a s1 e1 H0 H1|a s1 b1 H0 H1
      |a Hset Hno|a raw1 rest ls gr H0 H1 H2|a raw1 rest ls q s1 H0 H1 H2 H3 H4
      |a raw1 rest ls m1 c1 e1 H0 H1 H2 H3 H4|a raw1 rest v e1 H0 H1 H2];
      try (destruct Hl as [(?&?)|[(?&?&?)|(?&?)]]; discriminate).
    - left. cbn. eauto.
    - right. left. cbn. eauto.
    - right. right. left. auto.
    - right. right. right. split; [intro; congruence|].
      exists raw1, rest, (inr (OMsg gr)). split; [eapply af_greeting; eauto|reflexivity].
    - right. right. right. split; [assumption|].
      exists raw1, rest, (inl (OMsg (RCcr q))). split; [eapply af_response; eauto|].
      cbn. now rewrite H4.
    - right. right. right. split; [assumption|].
      exists raw1, rest, (inl (OMsg m1)). split; [eapply af_response; eauto|].
      cbn. apply (handle_response_recv _ _ _ CrDummy) in H4. now rewrite H4.
    - right. right. right. split; [assumption|].
      destruct H2 as [(-> & -> & H2)|(-> & -> & H2)]; destruct (a_greeted a) eqn:G;
        destruct H2 as (ls & H2).
      + exists raw1, rest, (inl OMalformed). split; [eapply af_response; eauto|reflexivity].
      + exists raw1, rest, (inr OMalformed). split; [eapply af_greeting; eauto|reflexivity].
      + exists raw1, rest, (inl OBareLf). split; [eapply af_response; eauto|reflexivity].
      + exists raw1, rest, (inr OBareLf). split; [eapply af_greeting; eauto|reflexivity].
  Qed.

  Lemma astep_det : forall a l1 a1 l2 a2, next_label l1 -> next_label l2 ->
    astep a l1 a1 -> astep a l2 a2 -> l1 = l2 /\ a1 = a2.
  Proof.
    intros a l1 a1 l2 a2 L1 L2 H1 H2.
    apply astep_cases in H1; [|assumption]. apply astep_cases in H2; [|assumption].
    destruct H1 as [(G1 & e1 & N1 & -> & E1)|[(G1 & b1 & N1 & -> & E1)|[(S1 & N1 & -> & E1)
      |(S1 & raw1 & rest1 & o1 & F1 & E1)]]];
    destruct H2 as [(G2 & e2 & N2 & -> & E2)|[(G2 & b2 & N2 & -> & E2)|[(S2 & N2 & -> & E2)
      |(S2 & raw2 & rest2 & o2 & F2 & E2)]]];
      try (rewrite N1 in N2; discriminate);
      try (specialize (S1 G2); rewrite S1 in N2; discriminate);
      try (specialize (S2 G1); rewrite S2 in N1; discriminate);
      try (exfalso; eapply aframe_message; eauto; fail).
    - rewrite N1 in N2. injection N2 as N2 ->. rewrite E1, E2, N2. auto.
    - rewrite N1 in N2. injection N2 as N2 ->. rewrite E1, E2, N2. auto.
    - subst. auto.
    - destruct (aframe_det _ _ _ _ _ _ _ F1 F2) as (-> & -> & ->).
      rewrite E1 in E2. injection E2 as -> ->. auto.
  Qed.

  Lemma astep_panics : forall a l a', next_label l -> astep a l a' -> ~ a_panics K relaxed a.
  Proof.
    intros a l a' L H P. apply astep_cases in H; [|assumption].
    assert (F : forall raw rest, a_buf a = raw ++ rest ->
      (if a_greeted a then exists ls m, rframed raw ls (OTrailing m)
       else exists ls m, gframed raw ls (OTrailing m)) ->
      exists o, aframe a raw rest o /\ frame_effect a raw rest o = None).
    { intros raw rest B T. destruct (a_greeted a) eqn:G; destruct T as (ls & m & T).
      - exists (inl (OTrailing m)). split; [eapply af_response; eauto|reflexivity].
      - exists (inr (OTrailing m)). split; [eapply af_greeting; eauto|reflexivity]. }
    destruct P as [(S & raw & rest & B & T)|(G & P)].
    - destruct (F raw rest B T) as (o & F1 & E1).
      destruct H as [(G2 & e2 & N2 & -> & E2)|[(G2 & b2 & N2 & -> & E2)|[(S2 & N2 & -> & E2)
        |(S2 & raw2 & rest2 & o2 & F2 & E2)]]];
        try (specialize (S G2); rewrite S in N2; discriminate).
      + eapply aframe_message; eauto.
      + destruct (aframe_det _ _ _ _ _ _ _ F1 F2) as (-> & -> & ->). congruence.
    - destruct H as [(G2 & e2 & N2 & -> & E2)|[(G2 & b2 & N2 & -> & E2)|[(S2 & N2 & -> & E2)
        |(S2 & raw2 & rest2 & o2 & F2 & E2)]]];
        try (rewrite N2 in P; discriminate); rewrite (S2 G) in P; discriminate.
  Qed.

  Lemma anext_det : forall a g1 r1 a1, anext a g1 r1 a1 -> forall g2 r2 a2, anext a g2 r2 a2 ->
    g1 = g2 /\ r1 = r2 /\ (r1 <> IPanic -> a1 = a2).
  Proof.
    assert (N1 : forall r, next_label [ClNext r]) by (left; eauto).
    assert (N2 : forall m r, next_label [ClRx m; ClNext r]) by (right; left; eauto).
    assert (N3 : forall m, next_label [ClRx m]) by (right; right; eauto).
    induction 1 as [a r1 a1 H|a m r1 a1 H|a m a0 g1 r1 a1 H H' IH|a a1 H]; intros g2 r2 a2 H2;
      destruct H2 as [a r2 a2 H2|a m2 r2 a2 H2|a m2 a3 g2 r2 a2 H2 H2'|a a2 H2];
      try (exfalso; match goal with
        | P : a_panics _ _ ?q, S : ClientAbs.astep _ _ ?q ?lb _ |- _ =>
            apply (astep_panics q lb _ ltac:(auto) S P) end; fail);
      try (match type of H with ClientAbs.astep _ _ ?q ?l1 ?b1 =>
             match type of H2 with ClientAbs.astep _ _ _ ?l2 ?b2 =>
               destruct (astep_det q l1 b1 l2 b2 ltac:(auto) ltac:(auto) H H2) as [E1 E2] end end;
           try discriminate; injection E1; intros; subst; auto; fail).
    - destruct (astep_det _ _ _ _ _ (N3 _) (N3 _) H H2) as [E1 E2].
      injection E1 as ->. subst a3. destruct (IH _ _ _ H2') as (-> & -> & E). auto.
    - repeat split; auto. congruence.
  Qed.

  (** Every abstract state is the state of some client. *)
  Lemma crel_exists : forall a, exists c, crel K relaxed c a.
  Proof.
    intro a. exists (ClientSt (a_gen a) (a_send a)
      (if a_greeted a then CrResponse (fresh relaxed None (a_buf a))
       else CrGreeting (fresh relaxed None (a_buf a)))).
    unfold crel. cbn. destruct (a_greeted a); repeat split; auto;
      apply reading_fresh.
  Qed.

  Lemma anext_total : forall a, exists g r a', anext a g r a'.
  Proof.
    intro a. destruct (crel_exists a) as [c Hc].
    destruct (client_next K c) as [[c' g] r] eqn:E.
    destruct (client_next_sim K relaxed c a c' g r Hc E) as (a' & H & _). eauto.
  Qed.

  Lemma client_next_det : forall c a g r a' c' g' r',
    crel K relaxed c a -> anext a g r a' -> client_next K c = (c', g', r') ->
    g' = g /\ r' = r /\ (r <> IPanic -> crel K relaxed c' a').
  Proof.
    intros c a g r a' c' g' r' Hc H E.
    destruct (client_next_sim K relaxed c a c' g' r' Hc E) as (a2 & H2 & _ & _ & R).
    destruct (anext_det _ _ _ _ H2 _ _ _ H) as (-> & -> & Ea).
    split; [reflexivity|]. split; [reflexivity|]. intro Hp. rewrite <- (Ea Hp). auto.
  Qed.

  (** *** Calls *)

  Definition acall (a : astate) (o : cop) : option (clog * astate) :=
    match o with
    | CopEnqueueCommand cmd =>
        let '(g, h) := hgen_generate (a_gen a) in
        Some (ClEnqueue cmd h, AState g (cs_enqueue_command (a_send a) h cmd) (a_greeted a) (a_buf a))
    | CopEnqueueInput x => Some (ClInput x, a_add a x)
    | CopSetAuthenticateData d =>
        match cs_set_authenticate_data K (a_send a) d with
        | Val (s, r) => Some (ClSetAuth d r, a_set_send a s)
        | Panic => None
        end
    | CopSetIdleDone =>
        match cs_set_idle_done K (a_send a) with
        | Val (s, r) => Some (ClSetDone r, a_set_send a s)
        | Panic => None
        end
    | CopNext => None
    end.

  Lemma acall_add : forall a o x, is_call o ->
    acall (a_add a x) o =
    match acall a o with Some (l, a') => Some (l, a_add a' x) | None => None end.
  Proof.
    intros a o x Ho. unfold acall, a_add, a_set_buf, a_set_send. cbn.
    destruct o; try contradiction; cbn.
    - destruct (hgen_generate (a_gen a)); reflexivity.
    - destruct (cs_set_authenticate_data K (a_send a) d) as [[s r]|]; reflexivity.
    - destruct (cs_set_idle_done K (a_send a)) as [[s r]|]; reflexivity.
  Qed.

  Lemma client_call_sim : forall c a o, crel K relaxed c a -> o <> CopNext ->
    match acall a o with
    | Some (l, a') => exists c', client_step K c o = (Some c', [l]) /\ crel K relaxed c' a'
    | None => client_step K c o = (None, [ClPanic])
    end.
  Proof.
    intros c a o Hrel Ho. pose proof Hrel as (Hg & Hs & Hr).
    destruct o as [cmd|x|d| |]; try congruence; unfold acall.
    - destruct (hgen_generate (a_gen a)) as [g h] eqn:E.
      unfold client_step, client_enqueue_command. rewrite Hg, E.
      eexists. split; [reflexivity|]. unfold crel. cbn. rewrite Hs. auto.
    - destruct (client_step K c (CopEnqueueInput x)) as [[c'|] l] eqn:E.
      + exists c'. 
        assert (l = [ClInput x]).
        { cbn in E. destruct (client_enqueue_input c x); injection E as E <-; [reflexivity|discriminate]. }
        subst l. split; [reflexivity|].
        unfold client_step, client_enqueue_input in E.
        destruct (c_recv c) as [s|s|] eqn:Ec; [| |discriminate]; injection E as <-;
          destruct Hr as (Hgr & Hb & Hread); unfold crel; cbn; repeat split; auto; try congruence;
          destruct Hread as (H1 & H2 & p & u & ls & H3 & H4); auto;
          exists p, (u ++ x), ls; split; auto; now apply rinv_add.
      + exfalso. cbn in E. unfold client_enqueue_input in E.
        destruct (c_recv c); try discriminate. contradiction.
    - unfold client_step, client_set_authenticate_data. rewrite Hs.
      destruct (cs_set_authenticate_data K (a_send a) d) as [[s1 r1]|]; [|reflexivity].
      eexists. split; [reflexivity|]. unfold crel. cbn. auto.
    - unfold client_step, client_set_idle_done. rewrite Hs.
      destruct (cs_set_idle_done K (a_send a)) as [[s1 r1]|]; [|reflexivity].
      eexists. split; [reflexivity|]. unfold crel. cbn. auto.
  Qed.

  Lemma enqueue_input_sim : forall c a x, crel K relaxed c a ->
    exists c', client_enqueue_input c x = Val c' /\ crel K relaxed c' (a_add a x).
  Proof.
    intros c a x Hrel.
    destruct (client_call_sim c a (CopEnqueueInput x) Hrel ltac:(discriminate)) as (c' & E & R).
    exists c'. split; [|exact R]. cbn in E.
    destruct (client_enqueue_input c x); congruence.
  Qed.

  (** Clients with the same abstract state behave alike. *)
  Lemma same_future : forall ops c1 c2 a, crel K relaxed c1 a -> crel K relaxed c2 a ->
    snd (client_run K c1 ops) = snd (client_run K c2 ops) /\
    (fst (client_run K c1 ops) = None <-> fst (client_run K c2 ops) = None).
  Proof.
    induction ops as [|o ops IH]; intros c1 c2 a R1 R2.
    - cbn. split; [reflexivity|]. split; discriminate.
    - cbn [client_run].
      assert (S : (exists c1' c2' a' l, client_step K c1 o = (Some c1', l) /\
                     client_step K c2 o = (Some c2', l) /\ crel K relaxed c1' a' /\ crel K relaxed c2' a') \/
                  (exists l, client_step K c1 o = (None, l) /\ client_step K c2 o = (None, l))).
      { destruct o as [cmd|x|d| |];
        try (match goal with |- context [client_step K c1 ?o] =>
          pose proof (client_call_sim c1 a o R1 ltac:(discriminate)) as S1;
          pose proof (client_call_sim c2 a o R2 ltac:(discriminate)) as S2;
          destruct (acall a o) as [[l a']|];
          [destruct S1 as (c1' & S1 & R1'); destruct S2 as (c2' & S2 & R2'); left; eauto 10|right; eauto] end; fail).
        cbn [client_step].
        destruct (client_next K c1) as [[c1' g1] r1] eqn:E1.
        destruct (client_next K c2) as [[c2' g2] r2] eqn:E2.
        destruct (client_next_sim K relaxed c1 a c1' g1 r1 R1 E1) as (a1 & N1 & _ & _ & R1').
        destruct (client_next_det c2 a g1 r1 a1 c2' g2 r2 R2 N1 E2) as (-> & -> & R2').
        destruct (c_is_panic r1) eqn:Ep.
        - right. eauto.
        - assert (Hp : r1 <> IPanic) by (intros ->; discriminate). left. eauto 10. }
      destruct S as [(c1' & c2' & a' & l & -> & -> & R1' & R2')|(l & -> & ->)].
      + specialize (IH c1' c2' a' R1' R2').
        destruct (client_run K c1' ops) as [x1 l1], (client_run K c2' ops) as [x2 l2].
        cbn in *. destruct IH as [-> IH]. auto.
      + cbn. tauto.
  Qed.

  (** *** Driver *)

  Section Driver.
    Variable app : list clog -> option cop.

    (** All input is available from the start. *)
    Inductive adrive : astate -> list clog -> list clog -> Prop :=
    | ad_stop : forall a h, adrive a h h
    | ad_call : forall a h o l a' h',
        app h = Some o -> is_call o -> acall a o = Some (l, a') ->
        adrive a' (h ++ [l]) h' -> adrive a h h'
    | ad_call_panic : forall a h o,
        app h = Some o -> is_call o -> acall a o = None -> adrive a h (h ++ [ClPanic])
    | ad_next : forall a h g r a' h',
        app h = None -> anext a g r a' -> r <> INeedMore -> r <> IPanic ->
        adrive a' (h ++ [ClNext r]) h' -> adrive a h h'
    | ad_next_panic : forall a h g a',
        app h = None -> anext a g IPanic a' -> adrive a h (h ++ [ClPanic]).

    Lemma adrive_need_more : forall a g a' y h h', app h = None ->
      anext a g INeedMore a' -> adrive (a_add a' y) h h' -> adrive (a_add a y) h h'.
    Proof.
      intros a g a' y h h' Ha Hn H.
      remember (a_add a' y) as b eqn:Eb.
      destruct H as [b h|b h o l b' h' H1 H2 H3 H4|b h o H1 H2 H3
        |b h g2 r b' h' H1 H2 H3 H4 H5|b h g2 b' H1 H2]; subst b; try congruence.
      - apply ad_stop.
      - eapply ad_next; eauto. eapply anext_need_more; eauto.
      - eapply ad_next_panic; eauto. eapply anext_need_more; eauto.
    Qed.

    Lemma drive_adrive : forall c xs h h', drive K app c xs h h' ->
      forall a, crel K relaxed c a -> adrive (a_add a (concat xs)) h h'.
    Proof.
      induction 1 as [c xs h|c xs h o c' l h' H1 H2 H3 _ IH|c xs h o l H1 H2 H3
        |c xs h c' g r h' H1 H2 H3 H4 _ IH|c xs h c' g H1 H2|c x xs h c' g c'' h' H1 H2 H3 _ IH];
        intros a R.
      - apply ad_stop.
      - assert (Ho : o <> CopNext) by (intros ->; contradiction).
        pose proof (client_call_sim c a o R Ho) as S. rewrite H3 in S.
        destruct (acall a o) as [[l0 a']|] eqn:E; [|discriminate].
        destruct S as (c0 & S & R'). injection S as <- ->.
        eapply ad_call; eauto. rewrite acall_add, E by assumption. reflexivity.
      - assert (Ho : o <> CopNext) by (intros ->; contradiction).
        pose proof (client_call_sim c a o R Ho) as S. rewrite H3 in S.
        destruct (acall a o) as [[l0 a']|] eqn:E; [destruct S as (c0 & S & R'); discriminate|].
        injection S as ->. eapply ad_call_panic; eauto.
        rewrite acall_add, E by assumption. reflexivity.
      - destruct (client_next_sim K relaxed c a c' g r R H2) as (a' & N & _ & _ & R').
        eapply ad_next; eauto. apply anext_add; eauto.
      - destruct (client_next_sim K relaxed c a c' g _ R H2) as (a' & N & _ & _ & _).
        eapply ad_next_panic; eauto. apply anext_add; [eauto|discriminate].
      - destruct (client_next_sim K relaxed c a c' g _ R H2) as (a' & N & _ & _ & R').
        specialize (R' ltac:(discriminate)).
        destruct (enqueue_input_sim c' a' x R') as (c3 & E & R3).
        rewrite H3 in E. injection E as <-. specialize (IH _ R3).
        cbn [concat]. eapply adrive_need_more; eauto. now rewrite <- a_add_add.
    Qed.

    Lemma drive_feed : forall xs c a g r b h h',
      crel K relaxed c a -> app h = None -> anext (a_add a (concat xs)) g r b ->
      r <> INeedMore ->
      (r <> IPanic -> forall c1 a1 xs1, crel K relaxed c1 a1 -> b = a_add a1 (concat xs1) ->
         drive K app c1 xs1 (h ++ [ClNext r]) h') ->
      (r = IPanic -> h' = h ++ [ClPanic]) ->
      drive K app c xs h h'.
    Proof.
      induction xs as [|x xs IH]; intros c a g r b h h' R Ha N Hr Hk Hp;
        destruct (client_next K c) as [[c1 g1] r1] eqn:E;
        destruct (client_next_sim K relaxed c a c1 g1 r1 R E) as (a1 & N1 & _ & _ & R1).
      - assert (E0 : a_add a (concat []) = a) by apply a_add_nil.
        pose proof N as N'. rewrite E0 in N'.
        destruct (anext_det _ _ _ _ N1 _ _ _ N') as (-> & -> & Eb).
        destruct (c_is_panic r) eqn:Ep.
        + destruct r; try discriminate. rewrite (Hp eq_refl). eapply d_next_panic; eauto.
        + assert (Hq : r <> IPanic) by (intros ->; discriminate).
          eapply d_next; eauto. eapply Hk; eauto. rewrite (Eb Hq). symmetry. apply a_add_nil.
      - assert (D : r1 = INeedMore \/ r1 <> INeedMore) by (destruct r1; auto; right; discriminate).
        destruct D as [->|D].
        + specialize (R1 ltac:(discriminate)).
          destruct (enqueue_input_sim c1 a1 x R1) as (c2 & E2 & R2).
          eapply d_feed; eauto.
          destruct (anext_total (a_add a1 (x ++ concat xs))) as (g2 & r2 & b2 & N2).
          pose proof (anext_need_more _ _ _ _ _ _ _ _ N1 eq_refl N2) as N3.
          cbn [concat] in N.
          destruct (anext_det _ _ _ _ N3 _ _ _ N) as (_ & -> & Eb).
          destruct (c_is_panic r) eqn:Ep.
          * destruct r; try discriminate.
            apply (IH c2 (a_add a1 x) g2 IPanic b2); auto; [|congruence].
            rewrite a_add_add. exact N2.
          * assert (Hq : r <> IPanic) by (intros ->; discriminate).
            eapply (IH c2 (a_add a1 x)); eauto. rewrite a_add_add, <- (Eb Hq). exact N2.
        + pose proof (anext_add _ _ _ _ (concat (x :: xs)) N1 D) as N2.
          destruct (anext_det _ _ _ _ N2 _ _ _ N) as (-> & -> & Eb).
          destruct (c_is_panic r) eqn:Ep.
          * destruct r; try discriminate. rewrite (Hp eq_refl). eapply d_next_panic; eauto.
          * assert (Hq : r <> IPanic) by (intros ->; discriminate).
            eapply d_next; eauto. eapply Hk; eauto. symmetry. auto.
    Qed.

    Lemma adrive_drive : forall b h h', adrive b h h' -> forall c a xs,
      crel K relaxed c a -> b = a_add a (concat xs) -> drive K app c xs h h'.
    Proof.
      induction 1 as [b h|b h o l b' h' H1 H2 H3 _ IH|b h o H1 H2 H3
        |b h g r b' h' H1 H2 H3 H4 _ IH|b h g b' H1 H2]; intros c a xs R ->.
      - apply d_stop.
      - assert (Ho : o <> CopNext) by (intros ->; contradiction).
        pose proof (client_call_sim c a o R Ho) as S.
        rewrite acall_add in H3 by assumption.
        destruct (acall a o) as [[l0 a']|] eqn:E; [|discriminate].
        injection H3 as -> <-. destruct S as (c' & S & R').
        eapply d_call; eauto.
      - assert (Ho : o <> CopNext) by (intros ->; contradiction).
        pose proof (client_call_sim c a o R Ho) as S.
        rewrite acall_add in H3 by assumption.
        destruct (acall a o) as [[l0 a']|] eqn:E; [discriminate|].
        eapply d_call_panic; eauto.
      - eapply drive_feed; eauto. congruence.
      - eapply drive_feed; eauto; [discriminate|congruence].
    Qed.

    Lemma drive_chunks : forall c a xs1 xs2 h h', crel K relaxed c a -> concat xs1 = concat xs2 ->
      drive K app c xs1 h h' -> drive K app c xs2 h h'.
    Proof.
      intros c a xs1 xs2 h h' R E H. eapply adrive_drive; [|exact R|reflexivity].
      rewrite <- E. eapply drive_adrive; eauto.
    Qed.
  End Driver.
End Det.
