(** The client as a transition system over: send state, "greeting received", and unread
    bytes. Every call of the modelled API is a sequence of such transitions, so properties
    of logs can be proved by induction over transitions. *)
From Coq Require Import List NArith Bool PeanoNat Lia ZifyBool ZifyNat ZifyN.
From Verif Require Import Base Types Codec Handle Receive ClientSend Client SpecFraming
  ReceiveProofs ClientRecv.
Import ListNotations.

Record astate : Type := AState {
  a_gen : hgen;
  a_send : csend;
  a_greeted : bool;
  a_buf : bytes
}.

Definition a_set_send (a : astate) (s : csend) : astate :=
  AState (a_gen a) s (a_greeted a) (a_buf a).
Definition a_set_buf (a : astate) (b : bytes) : astate :=
  AState (a_gen a) (a_send a) (a_greeted a) b.

Definition astate_new (g : hgen) : astate := AState g cs_new false [].

(** Event of the send side. *)
Definition cs_event_ev (e : cs_event) : cevent :=
  match e with
  | CvCommand h c => CeCommandSent h c
  | CvAuthenticate h => CeAuthenticateStarted h
  | CvIdle h => CeIdleCommandSent h
  | CvIdleDone h => CeIdleDoneSent h
  end.

Section Abs.
  Variable K : Codecs.
  Variable relaxed : bool.

  Notation gframed := (framed (dec_greeting K) relaxed no_literal).
  Notation rframed := (framed (dec_response K) relaxed client_accept).

  (** Nothing to send. *)
  Definition asettled (a : astate) : Prop :=
    a_greeted a = true -> cs_next K (a_send a) = (a_send a, CsOk None).

  Definition a_no_message (a : astate) : Prop :=
    if a_greeted a then ~ has_message (dec_response K) relaxed client_accept (a_buf a)
    else ~ has_message (dec_greeting K) relaxed no_literal (a_buf a).

  (** [raw] is a frame that is not a message. *)
  Definition bad_frame (greeted : bool) (raw : bytes) (v : cverdict) (e : cerror) : Prop :=
    (v = CvMalformed /\ e = CerrMalformedMessage raw /\
     if greeted then exists ls, rframed raw ls OMalformed
     else exists ls, gframed raw ls OMalformed) \/
    (v = CvBareLf /\ e = CerrExpectedCrlfGotLf raw /\
     if greeted then exists ls, rframed raw ls OBareLf
     else exists ls, gframed raw ls OBareLf).

  Inductive astep : astate -> list clog -> astate -> Prop :=
  | a_enqueue : forall a cmd g h,
      hgen_generate (a_gen a) = (g, h) ->
      astep a [ClEnqueue cmd h]
        (AState g (cs_enqueue_command (a_send a) h cmd) (a_greeted a) (a_buf a))
  | a_input : forall a x, astep a [ClInput x] (a_set_buf a (a_buf a ++ x))
  | a_setauth : forall a d s r,
      cs_set_authenticate_data K (a_send a) d = Val (s, r) ->
      astep a [ClSetAuth d r] (a_set_send a s)
  | a_setdone : forall a s r,
      cs_set_idle_done K (a_send a) = Val (s, r) ->
      astep a [ClSetDone r] (a_set_send a s)
  | a_silent : forall a s,
      a_greeted a = true -> cs_next K (a_send a) = (s, CsOk None) ->
      astep a [] (a_set_send a s)
  | a_event : forall a s e,
      a_greeted a = true -> cs_next K (a_send a) = (s, CsOk (Some e)) ->
      astep a [ClNext (IEvent (cs_event_ev e))] (a_set_send a s)
  | a_output : forall a s b,
      a_greeted a = true -> cs_next K (a_send a) = (s, CsOutput b) ->
      astep a [ClNext (IOutput b)] (a_set_send a s)
  | a_need : forall a,
      asettled a -> a_no_message a -> astep a [ClNext INeedMore] a
  | a_greet : forall a raw rest ls g,
      a_greeted a = false -> a_buf a = raw ++ rest -> gframed raw ls (OMsg g) ->
      astep a [ClRx (Crx raw (CvGreeting g)); ClNext (IEvent (CeGreetingReceived g))]
        (AState (a_gen a) (a_send a) true rest)
  | a_release : forall a raw rest ls q s,
      a_greeted a = true -> asettled a -> a_buf a = raw ++ rest ->
      rframed raw ls (OMsg (RCcr q)) ->
      cs_literal_continue (a_send a) = (s, true) ->
      astep a [ClRx (Crx raw (CvResponse (RCcr q)))] (AState (a_gen a) s true rest)
  | a_resp : forall a raw rest ls m c' e,
      a_greeted a = true -> asettled a -> a_buf a = raw ++ rest ->
      rframed raw ls (OMsg m) ->
      client_handle_response (ClientSt (a_gen a) (a_send a) (CrResponse (fresh relaxed None rest))) m
        = (c', IEvent e) ->
      astep a [ClRx (Crx raw (CvResponse m)); ClNext (IEvent e)]
        (AState (a_gen a) (c_send c') true rest)
  | a_bad : forall a raw rest v e,
      asettled a -> a_buf a = raw ++ rest -> bad_frame (a_greeted a) raw v e ->
      astep a [ClRx (Crx raw v); ClNext (IError e)] (a_set_buf a rest).

  Inductive asteps : astate -> list clog -> astate -> Prop :=
  | as_nil : forall a, asteps a [] a
  | as_snoc : forall a l a1 l1 a2,
      asteps a l a1 -> astep a1 l1 a2 -> asteps a (l ++ l1) a2.

  Lemma asteps_one : forall a l a', astep a l a' -> asteps a l a'.
  Proof. intros. change l with ([] ++ l). econstructor; [constructor|assumption]. Qed.

  Lemma asteps_trans : forall a l1 a1 l2 a2,
    asteps a l1 a1 -> asteps a1 l2 a2 -> asteps a (l1 ++ l2) a2.
  Proof.
    intros a l1 a1 l2 a2 H1 H2. induction H2 as [a1|a1 l a3 l3 a4 H2 IH H3].
    - now rewrite app_nil_r.
    - rewrite app_assoc. econstructor; eauto.
  Qed.

  (** The client is represented by the abstract state. *)
  Definition crel (c : client) (a : astate) : Prop :=
    c_gen c = a_gen a /\ c_send c = a_send a /\
    match c_recv c with
    | CrGreeting s =>
        a_greeted a = false /\ rs_buf s = a_buf a /\
        reading relaxed (dec_greeting K) no_literal None s
    | CrResponse s =>
        a_greeted a = true /\ rs_buf s = a_buf a /\
        reading relaxed (dec_response K) client_accept None s
    | CrDummy => False
    end.

  Lemma crel_new : forall g, crel (client_new g relaxed) (astate_new g).
  Proof.
    intro g. unfold crel, client_new, astate_new. cbn. repeat split.
    apply (reading_fresh relaxed (dec_greeting K) no_literal None []).
  Qed.

  Lemma cs_next_settled : forall s s',
    cs_next K s = (s', CsOk None) -> cs_next K s' = (s', CsOk None).
  Proof.
    intros [q cur] s' H. unfold cs_next in *. cbn [cs_current cs_queue] in *.
    assert (P : forall q m s', cs_progress q m = (s', CsOk None) ->
      match cs_current s' with Some m' => cs_progress (cs_queue s') m' = (s', CsOk None)
                             | None => False end).
    { clear. intros q m s' H. unfold cs_progress in *.
      destruct (cm_push_to_buffer m) as [out m1] eqn:E.
      destruct out as [|b out]; [|discriminate].
      destruct (cm_finish_sending m1) as [m2 ev] eqn:E2. injection H as <- ->.
      cbn [cs_current cs_queue].
      destruct m as [h c fs act|h ca act|h t act]; destruct act; cbn in E;
        repeat match type of E with context [push_fragments ?f] =>
          destruct (push_fragments f) as [[? [?|]] ?] end;
        inversion E; subst; cbn in E2;
        repeat match type of E2 with context [match ?o with Some _ => _ | None => _ end] =>
          destruct o end;
        inversion E2; subst; reflexivity. }
    destruct cur as [m|].
    - apply P in H. destruct (cs_current s'); [assumption|contradiction].
    - destruct q as [|[h c] q].
      + injection H as <-. reflexivity.
      + destruct (queued_start K h c); [|discriminate].
        apply P in H. destruct (cs_current s'); [assumption|contradiction].
  Qed.

  (** Why [progress_receive] may panic: the decoder left bytes over. *)
  Definition a_trailing (a : astate) : Prop :=
    exists raw rest, a_buf a = raw ++ rest /\
      if a_greeted a then exists ls m, rframed raw ls (OTrailing m)
      else exists ls m, gframed raw ls (OTrailing m).

  (** Why [next] may panic. *)
  Definition a_panics (a : astate) : Prop :=
    (asettled a /\ a_trailing a) \/ (a_greeted a = true /\ snd (cs_next K (a_send a)) = CsPanic).

  (** The state after [send_state.next] returned [Ok(None)], if it does. *)
  Definition quiesce (a : astate) : astate :=
    if a_greeted a then
      match cs_next K (a_send a) with
      | (s, CsOk None) => a_set_send a s
      | _ => a
      end
    else a.

  Lemma quiesce_steps : forall a, asteps a [] (quiesce a).
  Proof.
    intro a. unfold quiesce. destruct (a_greeted a) eqn:G; [|constructor].
    destruct (cs_next K (a_send a)) as [s [[e|]|b|]] eqn:E; try constructor.
    apply asteps_one. now constructor.
  Qed.

  Lemma quiesce_idem : forall a, quiesce (quiesce a) = quiesce a.
  Proof.
    intro a. unfold quiesce at 2 3. destruct (a_greeted a) eqn:G.
    - destruct (cs_next K (a_send a)) as [s [[e|]|b|]] eqn:E;
        unfold quiesce; cbn; rewrite ?G, ?E; try reflexivity.
      now rewrite (cs_next_settled _ _ E).
    - unfold quiesce. now rewrite G.
  Qed.

  (** One call of [next]: the messages taken from the input, and the result. *)
  Inductive anext : astate -> list crx -> c_ires -> astate -> Prop :=
  | an_send : forall a r a', astep (quiesce a) [ClNext r] a' -> anext a [] r a'
  | an_recv : forall a m r a', astep (quiesce a) [ClRx m; ClNext r] a' -> anext a [m] r a'
  | an_again : forall a m a1 g r a',
      astep (quiesce a) [ClRx m] a1 -> anext a1 g r a' -> anext a (m :: g) r a'
  | an_stuck : forall a a', a_panics (quiesce a) -> anext a [] IPanic a'.

  Lemma anext_steps : forall a g r a', anext a g r a' -> r <> IPanic ->
    asteps a (map ClRx g ++ [ClNext r]) a'.
  Proof.
    intros a g r a' H Hp. induction H as [a r a' H|a m r a' H|a m a1 g r a' H _ IH|a a' H];
      [..|congruence].
    - change (map ClRx [] ++ [ClNext r]) with ([] ++ [ClNext r]).
      econstructor; [apply quiesce_steps|exact H].
    - change (map ClRx [m] ++ [ClNext r]) with ([] ++ [ClRx m; ClNext r]).
      econstructor; [apply quiesce_steps|exact H].
    - change (map ClRx (m :: g) ++ [ClNext r]) with (([] ++ [ClRx m]) ++ (map ClRx g ++ [ClNext r])).
      eapply asteps_trans; [econstructor; [apply quiesce_steps|exact H]|auto].
  Qed.

  (** *** [progress_send] *)

  Lemma progress_send_sim : forall c a c' r,
    crel c a -> client_progress_send K c = (c', r) ->
    match r with
    | INone => crel c' (quiesce a) /\ asettled (quiesce a) /\ a_buf (quiesce a) = a_buf a
    | IEvent _ | IOutput _ => exists a', crel c' a' /\ astep (quiesce a) [ClNext r] a'
    | IPanic => a_panics (quiesce a)
    | _ => False
    end.
  Proof.
    intros c a c' r Hrel H. pose proof Hrel as (Hg & Hs & Hr).
    unfold client_progress_send in H.
    destruct (c_recv c) as [s|s|] eqn:Ec; [| |contradiction].
    - injection H as <- <-. destruct Hr as (Hgr & Hr).
      unfold quiesce, asettled. rewrite Hgr. split; [assumption|]. split; [congruence|auto].
    - destruct Hr as (Hgr & Hb & Hread). rewrite Hs in H.
      destruct (cs_next K (a_send a)) as [s1 r1] eqn:En.
      assert (Hrel' : crel (c_set_send c s1) (a_set_send a s1)).
      { unfold crel. cbn. rewrite Ec. auto. }
      unfold quiesce. rewrite Hgr, En.
      destruct r1 as [[e|]|b|].
      + assert (E : c_set_send c s1 = c' /\ r = IEvent (cs_event_ev e)).
        { destruct e; injection H as <- <-; auto. }
        destruct E as [<- ->]. eexists. split; [exact Hrel'|]. now constructor.
      + injection H as <- <-. split; [exact Hrel'|]. split; [|reflexivity].
        intros _. cbn. eapply cs_next_settled; eauto.
      + injection H as <- <-. eexists. split; [exact Hrel'|]. now constructor.
      + injection H as <- <-. right. now rewrite En.
  Qed.

  (** *** [progress_receive] *)

  Lemma framed_not_rejected : forall raw ls i, ~ rframed raw ls (ORejected i).
  Proof.
    intros raw ls i H. unfold framed in H. remember [] as p. clear Heqp.
    remember (ORejected i) as o eqn:Eo. induction H as [p l o Hl V|]; auto.
    subst o. inversion V; subst. discriminate.
  Qed.

  Lemma gframed_not_rejected : forall raw ls i, ~ gframed raw ls (ORejected i).
  Proof. intros raw ls []. Qed.

  Lemma progress_receive_sim : forall c a c' g r,
    crel c a -> asettled a ->
    client_progress_receive K (client_fuel c) c = (c', g, r) ->
    match r with
    | INone => exists a' m, g = [m] /\ crel c' a' /\ astep a [ClRx m] a' /\
                 length (a_buf a') < length (a_buf a)
    | INeedMore | IEvent _ | IError _ =>
        exists a', crel c' a' /\ astep a (map ClRx g ++ [ClNext r]) a' /\
          (g = [] \/ exists m, g = [m])
    | IPanic => g = [] /\ a_trailing a
    | _ => False
    end.
  Proof.
    intros c a c' g r (Hg & Hs & Hr) Hset H.
    unfold client_fuel, client_buf in H.
    destruct (c_recv c) as [s|s|] eqn:Ec; [| |contradiction];
      destruct Hr as (Hgr & Hb & Hread).
    - destruct (cpr_greeting_spec K relaxed (S (length (rs_buf s))) c s Ec Hread)
        as [(s' & E & _ & Hb' & Hread' & Hno)
           |[(raw & rest & ls & o & Hbuf & Hfr & Hnt & E)
            |(c1 & E & raw & rest & ls & m & Hbuf & Hfr)]];
        rewrite E in H.
      + injection H as <- <- <-. exists a. split.
        * unfold crel. cbn. rewrite Hb'. auto.
        * split; [|auto]. apply a_need; auto.
          unfold a_no_message. rewrite Hgr. congruence.
      + rewrite Hb in Hbuf.
        destruct o as [m| | |i|m]; cbn in H; injection H as <- <- <-.
        * eexists. split; [|split; [eapply a_greet; eauto|eauto]].
          unfold crel. cbn. repeat split; auto.
          apply (reading_fresh relaxed (dec_response K) client_accept None rest).
        * exists (a_set_buf a rest). split.
          -- unfold crel. cbn. repeat split; auto.
             apply (reading_fresh relaxed (dec_greeting K) no_literal None rest).
          -- split; [|eauto]. apply a_bad; auto. left. rewrite Hgr. eauto.
        * exists (a_set_buf a rest). split.
          -- unfold crel. cbn. repeat split; auto.
             apply (reading_fresh relaxed (dec_greeting K) no_literal None rest).
          -- split; [|eauto]. apply a_bad; auto. right. rewrite Hgr. eauto.
        * destruct i.
        * exfalso. now apply (Hnt m).
      + injection H as <- <- <-. split; [reflexivity|].
        exists raw, rest. rewrite Hgr. split; [congruence|eauto].
    - pose proof Hread as (Hrx & Hmx & p & u & ls0 & Hinv & Hsem).
      assert (Hf : length u < S (S (length (rs_buf s)))).
      { destruct Hinv as (Hpu & _). rewrite Hpu, app_length. lia. }
      destruct (cpr_response_spec K relaxed _ c s p u ls0 Ec Hrx Hmx Hinv Hsem Hf)
        as [(s' & E & Hb' & Hread' & Hno)
           |[(raw & rest & ls & o & Hbuf & Hfr & Hnt & E)
            |(c1 & E & raw & rest & ls & m & Hbuf & Hfr)]];
        rewrite E in H.
      + injection H as <- <- <-. exists a. split.
        * unfold crel. cbn. rewrite Hb'. auto.
        * split; [|auto]. apply a_need; auto.
          unfold a_no_message. rewrite Hgr. congruence.
      + rewrite Hb in Hbuf.
        assert (Hlen : length rest < length (a_buf a)).
        { rewrite Hbuf, app_length. apply scan_nonempty in Hfr. lia. }
        destruct o as [m| | |i|m]; cbn in H.
        * assert (Ecl : c_set_recv c (CrResponse (fresh relaxed None rest))
                        = ClientSt (a_gen a) (a_send a) (CrResponse (fresh relaxed None rest))).
          { unfold c_set_recv. now rewrite Hg, Hs. }
          rewrite Ecl in H.
          destruct (client_handle_response _ m) as [c3 ir] eqn:Eh.
          injection H as <- <- <-.
          assert (Hc3 : c_gen c3 = a_gen a /\ c_recv c3 = CrResponse (fresh relaxed None rest)).
          { unfold client_handle_response in Eh. destruct m as [st|d|q].
            - cbn [c_send] in Eh. destruct (cs_maybe_terminate (a_send a) st) as [s1 [t|]];
                [destruct t|]; injection Eh as <- <-; auto.
            - injection Eh as <- <-. auto.
            - cbn [c_send] in Eh. destruct (cs_literal_continue (a_send a)) as [s1 [|]].
              + injection Eh as <- <-; auto.
              + destruct (cs_authenticate_continue s1) as [s2 [h|]].
                * injection Eh as <- <-; auto.
                * destruct (cs_idle_continue s2) as [s3 [h|]]; injection Eh as <- <-; auto. }
          destruct Hc3 as [Hc3g Hc3r].
          assert (Hrel3 : crel c3 (AState (a_gen a) (c_send c3) true rest)).
          { unfold crel. cbn. rewrite Hc3r. repeat split; auto.
            apply (reading_fresh relaxed (dec_response K) client_accept None rest). }
          assert (Hir : (exists e, ir = IEvent e) \/
                        (ir = INone /\ exists q, m = RCcr q /\
                           cs_literal_continue (a_send a) = (c_send c3, true))).
          { unfold client_handle_response in Eh. destruct m as [st|d|q].
            - cbn [c_send] in Eh. destruct (cs_maybe_terminate (a_send a) st) as [s1 [t|]];
                [destruct t|]; injection Eh as <- <-; eauto.
            - injection Eh as <- <-. eauto.
            - cbn [c_send] in Eh. destruct (cs_literal_continue (a_send a)) as [s1 [|]] eqn:El.
              + injection Eh as <- <-. right. split; eauto.
              + destruct (cs_authenticate_continue s1) as [s2 [h|]].
                * injection Eh as <- <-; eauto.
                * destruct (cs_idle_continue s2) as [s3 [h|]]; injection Eh as <- <-; eauto. }
          destruct Hir as [[e ->]|[-> (q & -> & Hl)]].
          -- eexists. split; [exact Hrel3|]. split; [|eauto]. eapply a_resp; eauto.
          -- eexists. eexists. split; [reflexivity|]. split; [exact Hrel3|].
             split; [|exact Hlen]. eapply a_release; eauto.
        * injection H as <- <- <-. exists (a_set_buf a rest). split.
          -- unfold crel. cbn. repeat split; auto.
             apply (reading_fresh relaxed (dec_response K) client_accept None rest).
          -- split; [|eauto]. apply a_bad; auto. left. rewrite Hgr. eauto.
        * injection H as <- <- <-. exists (a_set_buf a rest). split.
          -- unfold crel. cbn. repeat split; auto.
             apply (reading_fresh relaxed (dec_response K) client_accept None rest).
          -- split; [|eauto]. apply a_bad; auto. right. rewrite Hgr. eauto.
        * exfalso. eapply framed_not_rejected; eauto.
        * exfalso. now apply (Hnt m).
      + injection H as <- <- <-. split; [reflexivity|].
        exists raw, rest. rewrite Hgr. split; [congruence|eauto].
  Qed.

  (** *** [next] *)

  Lemma client_buf_rel : forall c a, crel c a -> client_buf c = a_buf a.
  Proof.
    intros c a (_ & _ & H). unfold client_buf. destruct (c_recv c); tauto.
  Qed.

  Lemma next_loop_sim : forall fuel c a c' g r,
    crel c a -> length (a_buf a) < fuel ->
    client_next_loop K fuel c = (c', g, r) ->
    exists a', anext a g r a' /\ r <> INone /\ r <> IFuel /\ (r <> IPanic -> crel c' a').
  Proof.
    induction fuel as [|fuel IH]; intros c a c' g r Hrel Hf H; [lia|].
    cbn [client_next_loop] in H.
    destruct (client_progress_send K c) as [c1 r1] eqn:Es.
    pose proof (progress_send_sim c a c1 r1 Hrel Es) as S1.
    destruct r1; try contradiction; try (injection H as <- <- <-).
    - destruct S1 as (a1 & R1 & S1). exists a1.
      split; [apply an_send; exact S1|]. split; [discriminate|]. split; [discriminate|auto].
    - destruct S1 as (R1 & Hset & Hb1).
      destruct (client_progress_receive K (client_fuel c1) c1) as [[c2 g2] r2] eqn:Er.
      pose proof (progress_receive_sim c1 _ c2 g2 r2 R1 Hset Er) as S2.
      destruct r2; try contradiction; try (injection H as <- <- <-);
        try (destruct S2 as (a2 & R2 & S2 & Hg); exists a2;
             split; [destruct Hg as [->|[m ->]]; [apply an_send|apply an_recv]; exact S2|];
             split; [discriminate|]; split; [discriminate|auto]).
      + destruct S2 as (a2 & m & -> & R2 & S2 & Hlen).
        destruct (client_next_loop K fuel c2) as [[c3 g3] r3] eqn:En.
        injection H as <- <- <-.
        destruct (IH c2 a2 c3 g3 r3 R2 ltac:(rewrite Hb1 in Hlen; lia) En)
          as (a3 & S3 & Hn & Hfu & R3).
        exists a3. split; [eapply an_again; eauto|]. auto.
      + destruct S2 as [-> S2]. exists a. split; [apply an_stuck; left; auto|].
        split; [discriminate|]. split; [discriminate|congruence].
    - destruct S1 as (a1 & R1 & S1). exists a1.
      split; [apply an_send; exact S1|]. split; [discriminate|]. split; [discriminate|auto].
    - exists a. split; [now apply an_stuck|].
      split; [discriminate|]. split; [discriminate|congruence].
  Qed.

  Lemma client_next_sim : forall c a c' g r,
    crel c a -> client_next K c = (c', g, r) ->
    exists a', anext a g r a' /\ r <> INone /\ r <> IFuel /\ (r <> IPanic -> crel c' a').
  Proof.
    intros c a c' g r Hrel H. eapply next_loop_sim; [exact Hrel| |exact H].
    unfold client_fuel. rewrite (client_buf_rel c a Hrel). lia.
  Qed.

  (** *** Steps and runs *)

  Lemma client_step_sim : forall c a o c' l,
    crel c a -> client_step K c o = (Some c', l) ->
    exists a', asteps a l a' /\ crel c' a'.
  Proof.
    intros c a o c' l Hrel H. pose proof Hrel as (Hg & Hs & Hr).
    destruct o as [cmd|x|d| |]; unfold client_step in H.
    - injection H as <- <-. eexists. split.
      + apply asteps_one. eapply a_enqueue. rewrite <- Hg. reflexivity.
      + unfold crel. cbn. rewrite Hs. auto.
    - unfold client_enqueue_input in H.
      destruct (c_recv c) as [s|s|] eqn:Ec; [| |discriminate]; injection H as <- <-;
        destruct Hr as (Hgr & Hb & Hread);
        (eexists; split; [apply asteps_one; apply a_input|]);
        unfold crel; cbn; repeat split; auto; try congruence;
        destruct Hread as (H1 & H2 & p & u & ls & H3 & H4); auto;
        exists p, (u ++ x), ls; split; auto; now apply rinv_add.
    - unfold client_set_authenticate_data in H. rewrite Hs in H.
      destruct (cs_set_authenticate_data K (a_send a) d) as [[s1 r1]|] eqn:E; [|discriminate].
      cbn in H. injection H as <- <-. eexists. split.
      + apply asteps_one. eapply a_setauth; eauto.
      + unfold crel. cbn. auto.
    - unfold client_set_idle_done in H. rewrite Hs in H.
      destruct (cs_set_idle_done K (a_send a)) as [[s1 r1]|] eqn:E; [|discriminate].
      cbn in H. injection H as <- <-. eexists. split.
      + apply asteps_one. eapply a_setdone; eauto.
      + unfold crel. cbn. auto.
    - destruct (client_next K c) as [[c1 g1] r1] eqn:E.
      destruct (client_next_sim c a c1 g1 r1 Hrel E) as (a' & S & _ & _ & R).
      destruct (c_is_panic r1) eqn:Ep; [discriminate|]. injection H as <- <-.
      assert (Hp : r1 <> IPanic) by (intros ->; discriminate).
      exists a'. split; [now apply anext_steps|auto].
  Qed.

  Lemma client_run_sim : forall ops c a c' l,
    crel c a -> client_run K c ops = (Some c', l) ->
    exists a', asteps a l a' /\ crel c' a'.
  Proof.
    induction ops as [|o ops IH]; intros c a c' l Hrel H; cbn in H.
    - injection H as <- <-. exists a. split; [constructor|assumption].
    - destruct (client_step K c o) as [[c1|] l1] eqn:E; [|discriminate].
      destruct (client_run K c1 ops) as [c2 l2] eqn:E2. injection H as -> <-.
      destruct (client_step_sim c a o c1 l1 Hrel E) as (a1 & S1 & R1).
      destruct (IH c1 a1 c' l2 R1 E2) as (a2 & S2 & R2).
      exists a2. split; [eapply asteps_trans; eauto|assumption].
  Qed.

  Lemma client_run_new : forall g ops c l,
    client_run K (client_new g relaxed) ops = (Some c, l) ->
    exists a, asteps (astate_new g) l a /\ crel c a.
  Proof. intros g ops c l H. eapply client_run_sim; eauto. apply crel_new. Qed.
End Abs.
