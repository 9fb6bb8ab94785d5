(** [client_progress_receive] implements the framing specification. *)
From Coq Require Import List NArith Bool PeanoNat Lia ZifyBool ZifyNat ZifyN.
From Verif Require Import Base Types Codec Handle Receive ClientSend Client SpecFraming
  SpecClient ReceiveProofs.
Import ListNotations.

(** The reader at the start of a message. *)
Definition fresh (relaxed : bool) (mx : option N) (b : bytes) : rstate :=
  RState relaxed mx (NfLine 0) 0 b.

Notation client_accept := accept_any.
Notation no_literal := accept_none.

Section Recv.
  Variable K : Codecs.
  Variable relaxed : bool.

  (** What the client does with the frame [raw] once its outcome is known. *)
  Definition cpr_response (c : client) (raw rest : bytes) (o : outcome response N)
    : client * list crx * c_ires :=
    let c2 := c_set_recv c (CrResponse (fresh relaxed None rest)) in
    match o with
    | OMsg m =>
        let '(c3, ir) := client_handle_response c2 m in
        (c3, [Crx raw (CvResponse m)], ir)
    | OMalformed => (c2, [Crx raw CvMalformed], IError (CerrMalformedMessage raw))
    | OBareLf => (c2, [Crx raw CvBareLf], IError (CerrExpectedCrlfGotLf raw))
    | ORejected _ | OTrailing _ => (c2, [], IPanic)
    end.

  Definition cpr_greeting (c : client) (raw rest : bytes) (o : outcome greeting Empty_set)
    : client * list crx * c_ires :=
    let c2 := c_set_recv c (CrGreeting (fresh relaxed None rest)) in
    match o with
    | OMsg g =>
        (c_set_recv c (CrResponse (fresh relaxed None rest)),
         [Crx raw (CvGreeting g)], IEvent (CeGreetingReceived g))
    | OMalformed => (c2, [Crx raw CvMalformed], IError (CerrMalformedMessage raw))
    | OBareLf => (c2, [Crx raw CvBareLf], IError (CerrExpectedCrlfGotLf raw))
    | ORejected _ | OTrailing _ => (c2, [], IPanic)
    end.

  (** The reader is in the middle of a message of the given kind. *)
  Definition reading {M L} (dec : bytes -> dec_result M L) (accept : L -> option N)
      (mx : option N) (s : rstate) : Prop :=
    rs_relaxed s = relaxed /\ rs_max s = mx /\
    exists p u ls, rinv s p u /\ sem_inv dec relaxed accept p (rs_frag s) ls.

  Lemma reading_fresh : forall {M L} (dec : bytes -> dec_result M L) accept mx b,
    reading dec accept mx (fresh relaxed mx b).
  Proof.
    intros. repeat split. exists [], b, []. split.
    - apply rinv_fresh.
    - apply sem_init.
  Qed.

  Lemma skipn_seen : forall s q u, rs_buf s = q ++ u -> rs_seen s = length q ->
    rs_finish_message s = Val (fresh (rs_relaxed s) (rs_max s) u) /\
    rs_discard_message s = Val (fresh (rs_relaxed s) (rs_max s) u, q) /\
    firstn (rs_seen s) (rs_buf s) = q.
  Proof.
    intros s q u Hb Hs.
    assert (H : rs_seen s <= length (rs_buf s)) by (rewrite Hb, Hs, app_length; lia).
    rewrite rs_finish_ok, rs_discard_ok by exact H.
    rewrite Hb, Hs, skipn_app_exact, firstn_app_exact. auto.
  Qed.

  Lemma cpr_greeting_spec : forall fuel c s,
    c_recv c = CrGreeting s -> reading (dec_greeting K) no_literal None s ->
    (exists s', client_progress_receive K (S fuel) c
                  = (c_set_recv c (CrGreeting s'), [], INeedMore) /\
       rs_next (dec_greeting K) s = (s', RcvNeedMore) /\
       rs_buf s' = rs_buf s /\ reading (dec_greeting K) no_literal None s' /\
       ~ has_message (dec_greeting K) relaxed no_literal (rs_buf s))
    \/
    (exists raw rest ls o, rs_buf s = raw ++ rest /\
       framed (dec_greeting K) relaxed no_literal raw ls o /\
       (forall m, o <> OTrailing m) /\
       client_progress_receive K (S fuel) c = cpr_greeting c raw rest o)
    \/
    (exists c', client_progress_receive K (S fuel) c = (c', [], IPanic) /\
       exists raw rest ls m, rs_buf s = raw ++ rest /\
         framed (dec_greeting K) relaxed no_literal raw ls (OTrailing m)).
  Proof.
    intros fuel c s Hc (Hrel & Hmx & p & u & ls & Hinv & Hsem).
    destruct (rs_next_cases (dec_greeting K) s p u Hinv)
      as [(w & l & u' & Hu & Hfl & Hfit & E)
         |[(Hno & Hw & Hlim & d & u' & f' & Hu & E & Hinv1 & Hcase)
          |(Hno & Hlim & f' & E)]];
      cbn [client_progress_receive]; rewrite Hc, E.
    - pose proof (line_verdict_cases (dec_greeting K) relaxed no_literal (p ++ w) l) as V.
      pose proof Hinv as (Hb & _).
      destruct (skipn_seen (rafter s (p ++ w) u') (p ++ w) u' eq_refl eq_refl)
        as (Hfin & Hdis & Hraw).
      assert (Hbuf : rs_buf s = (p ++ w) ++ u') by (rewrite Hb, Hu; now rewrite app_assoc).
      unfold client_discard. rewrite Hfin, Hdis, Hraw.
      cbn [rafter rs_relaxed rs_max]. rewrite Hrel, Hmx in *.
      destruct (line_verdict (dec_greeting K) relaxed (p ++ w) l) eqn:EV.
      + right. left. exists (p ++ w), u', ls, (OMsg m). repeat split; auto; [|congruence].
        eapply sem_done; eauto.
      + contradiction.
      + destruct l0.
      + right. left. exists (p ++ w), u', ls, OMalformed. repeat split; auto; [|congruence].
        eapply sem_done; eauto.
      + right. left. exists (p ++ w), u', ls, OBareLf. repeat split; auto; [|congruence].
        eapply sem_done; eauto.
      + contradiction.
      + right. right. destruct V as (m & V).
        eexists. split; [reflexivity|]. exists (p ++ w), u', ls, m. split; [assumption|].
        eapply sem_done; eauto.
      + contradiction.
    - left. eexists. split; [reflexivity|]. split; [reflexivity|].
      pose proof Hinv as (Hb & _). cbn [rs_buf]. split; [congruence|]. split.
      + repeat split; auto. exists (p ++ d), u', ls. split; [exact Hinv1|].
        cbn [rs_frag]. destruct Hcase as [(-> & [->|(k & k' & Hk & ->)])|(k & Hk & ->)].
        * now rewrite app_nil_r.
        * rewrite app_nil_r. rewrite Hk in Hsem. eapply sem_line_k; eauto.
        * rewrite Hk in Hsem. now apply sem_lit_read.
      + rewrite Hb. eapply sem_no_message; eauto.
    - rewrite Hmx in Hlim. discriminate.
  Qed.

  Lemma cpr_response_spec : forall fuel c s p u ls,
    c_recv c = CrResponse s -> rs_relaxed s = relaxed -> rs_max s = None ->
    rinv s p u -> sem_inv (dec_response K) relaxed client_accept p (rs_frag s) ls ->
    length u < fuel ->
    (exists s', client_progress_receive K fuel c
                  = (c_set_recv c (CrResponse s'), [], INeedMore) /\
       rs_buf s' = rs_buf s /\ reading (dec_response K) client_accept None s' /\
       ~ has_message (dec_response K) relaxed client_accept (rs_buf s))
    \/
    (exists raw rest ls o, rs_buf s = raw ++ rest /\
       framed (dec_response K) relaxed client_accept raw ls o /\
       (forall m, o <> OTrailing m) /\
       client_progress_receive K fuel c = cpr_response c raw rest o)
    \/
    (exists c', client_progress_receive K fuel c = (c', [], IPanic) /\
       exists raw rest ls m, rs_buf s = raw ++ rest /\
         framed (dec_response K) relaxed client_accept raw ls (OTrailing m)).
  Proof.
    induction fuel as [|fuel IH]; intros c s p u ls Hc Hrel Hmx Hinv Hsem Hfuel; [lia|].
    destruct (rs_next_cases (dec_response K) s p u Hinv)
      as [(w & l & u' & Hu & Hfl & Hfit & E)
         |[(Hno & Hw & Hlim & d & u' & f' & Hu & E & Hinv1 & Hcase)
          |(Hno & Hlim & f' & E)]];
      cbn [client_progress_receive]; rewrite Hc, E.
    - pose proof (line_verdict_cases (dec_response K) relaxed client_accept (p ++ w) l) as V.
      pose proof Hinv as (Hb & _).
      destruct (skipn_seen (rafter s (p ++ w) u') (p ++ w) u' eq_refl eq_refl)
        as (Hfin & Hdis & Hraw).
      assert (Hbuf : rs_buf s = (p ++ w) ++ u') by (rewrite Hb, Hu; now rewrite app_assoc).
      unfold client_discard. rewrite Hfin, Hdis, Hraw.
      cbn [rafter rs_relaxed rs_max]. rewrite Hrel, Hmx in *.
      destruct (line_verdict (dec_response K) relaxed (p ++ w) l) eqn:EV.
      + right. left. exists (p ++ w), u', ls, (OMsg m). repeat split; auto; [|congruence].
        eapply sem_done; eauto.
      + contradiction.
      + (* a literal *)
        destruct V as (Hok & Hd).
        assert (Hlw : 1 <= length w).
        { inversion Hfl; subst; rewrite ?app_length;
            match goal with H : is_line _ |- _ => apply is_line_nonempty in H end; lia. }
        set (s2 := rs_start_literal (RState relaxed None (NfLine 0) (length (p ++ w)) ((p ++ w) ++ u')) l0).
        assert (Hs2 : rinv s2 (p ++ w) u').
        { repeat split. }
        assert (Hm2 : sem_inv (dec_response K) relaxed client_accept (p ++ w) (rs_frag s2) (ls ++ [l0])).
        { eapply sem_lit; eauto. }
        rewrite Hu, app_length in Hfuel.
        specialize (IH (c_set_recv c (CrResponse s2)) s2 (p ++ w) u' (ls ++ [l0])
                       eq_refl eq_refl eq_refl Hs2 Hm2 ltac:(lia)).
        replace (rs_buf s2) with (rs_buf s) in IH by (rewrite Hbuf; reflexivity).
        unfold rafter. rewrite Hrel, Hmx. exact IH.
      + right. left. exists (p ++ w), u', ls, OMalformed. repeat split; auto; [|congruence].
        eapply sem_done; eauto.
      + right. left. exists (p ++ w), u', ls, OBareLf. repeat split; auto; [|congruence].
        eapply sem_done; eauto.
      + contradiction.
      + right. right. destruct V as (m & V).
        eexists. split; [reflexivity|]. exists (p ++ w), u', ls, m. split; [assumption|].
        eapply sem_done; eauto.
      + contradiction.
    - left. eexists. split; [reflexivity|].
      pose proof Hinv as (Hb & _). cbn [rs_buf]. split; [congruence|]. split.
      + repeat split; auto. exists (p ++ d), u', ls. split; [exact Hinv1|].
        cbn [rs_frag]. destruct Hcase as [(-> & [->|(k & k' & Hk & ->)])|(k & Hk & ->)].
        * now rewrite app_nil_r.
        * rewrite app_nil_r. rewrite Hk in Hsem. eapply sem_line_k; eauto.
        * rewrite Hk in Hsem. now apply sem_lit_read.
      + rewrite Hb. eapply sem_no_message; eauto.
    - rewrite Hmx in Hlim. discriminate.
  Qed.
End Recv.
