(** The server as a transition system over: send state, expected message, the beginning of
    the command being received, and unread bytes. Every call of the modelled API is a
    sequence of such transitions. *)
From Coq Require Import List NArith Bool PeanoNat Lia ZifyBool ZifyNat ZifyN.
From Verif Require Import Base Types Codec Handle Receive ServerSend Server SpecFraming
  SpecClient SpecServer ReceiveProofs ClientRecv ServerRecv.
Import ListNotations.

Record xstate : Type := XState {
  x_gen : hgen;
  x_send : ssend;
  x_mode : expected;
  x_pre : bytes;
  x_lits : list cmd_lit;
  x_need : N;
  x_rest : bytes
}.

Definition x_buf (a : xstate) : bytes := x_pre a ++ x_rest a.

Definition x_set_send (a : xstate) (s : ssend) : xstate :=
  XState (x_gen a) s (x_mode a) (x_pre a) (x_lits a) (x_need a) (x_rest a).

(** A new message is expected. *)
Definition x_start (a : xstate) (s : ssend) (m : expected) (rest : bytes) : xstate :=
  XState (x_gen a) s m [] [] 0 rest.

Definition ss_push (s : ssend) (ms : list smsg) : ssend :=
  SSend (ss_queue s ++ ms) (ss_current s).

(** The send state when [send_state.next] leads to [progress_receive]. *)
Definition quiet (s : ssend) : option ssend :=
  match ss_current s with
  | None => match ss_queue s with [] => Some s | _ :: _ => None end
  | Some (SmResponse None _) => Some (SSend (ss_queue s) None)
  | Some _ => None
  end.

Definition mode_after (m : expected) (v : sverdict) : expected :=
  match v with
  | SvCommand c =>
      match cbody c with
      | BAuthenticate _ _ => ExAuthenticateData
      | BIdle => ExIdleAccept
      | BOther _ => m
      end
  | SvIdleDone => ExCommand
  | _ => m
  end.

Definition pushed_by (o : soptions) (v : sverdict) : list smsg :=
  match v with
  | SvLiteralTooLong i => when_sync i (SmResponse None (reject_response o i))
  | _ => []
  end.

Section Abs.
  Variable K : Codecs.
  Variable o : soptions.

  Notation mx := (Some (so_max_command_size o)).
  Notation relaxed := (so_crlf_relaxed o).
  Notation copened := (opened (dec_command K) relaxed (cmd_accept o)).

  (** API calls. *)
  Definition xenqueue (a : xstate) (r : response) (m : expected) : xstate * handle :=
    let '(g, h) := hgen_generate (x_gen a) in
    (XState g (ss_enqueue (x_send a) (SmResponse (Some h) r)) m
       (x_pre a) (x_lits a) (x_need a) (x_rest a), h).

  Definition xcall (a : xstate) (p : sop) : option (xstate * slog) :=
    match p with
    | SopEnqueue r =>
        let '(a', h) := xenqueue a r (x_mode a) in Some (a', SlEnqueue r h)
    | SopEnqueueInput x =>
        Some (XState (x_gen a) (x_send a) (x_mode a) (x_pre a) (x_lits a) (x_need a)
                (x_rest a ++ x), SlInput x)
    | SopAuthenticateContinue q =>
        match x_mode a with
        | ExAuthenticateData =>
            let '(a', h) := xenqueue a (RCcr q) (x_mode a) in
            Some (a', SlAuthContinue q (inl h))
        | _ => Some (a, SlAuthContinue q (inr q))
        end
    | SopAuthenticateFinish t =>
        match x_mode a with
        | ExAuthenticateData =>
            let '(a', h) := xenqueue a (RStatus t) ExCommand in
            Some (a', SlAuthFinish t (inl h))
        | _ => Some (a, SlAuthFinish t (inr t))
        end
    | SopIdleAccept q =>
        match x_mode a with
        | ExIdleAccept =>
            let '(a', h) := xenqueue a (RCcr q) ExIdleDone in
            Some (a', SlIdleAccept q (inl h))
        | _ => Some (a, SlIdleAccept q (inr q))
        end
    | SopIdleReject t =>
        match x_mode a with
        | ExIdleAccept =>
            let '(a', h) := xenqueue a (RStatus t) ExCommand in
            Some (a', SlIdleReject t (inl h))
        | _ => Some (a, SlIdleReject t (inr t))
        end
    | SopNext => None
    end.

  Inductive xstep : xstate -> list slog -> xstate -> Prop :=
  | x_call : forall a p a' e, xcall a p = Some (a', e) -> xstep a [e] a'
  | x_out : forall a m q,
      ss_current (x_send a) = None -> ss_queue (x_send a) = m :: q ->
      xstep a [SlNext (IOutput (smsg_bytes K m))] (x_set_send a (SSend q (Some m)))
  | x_sent : forall a m e,
      ss_current (x_send a) = Some m -> sent_event m = Some e ->
      xstep a [SlNext (IEvent e)] (x_set_send a (SSend (ss_queue (x_send a)) None))
  | x_need_more : forall a s1,
      quiet (x_send a) = Some s1 ->
      x_mode a = ExIdleAccept \/
      (no_line (NfLiteral (x_need a)) (x_rest a) /\
       (N.of_nat (length (x_buf a)) < so_max_command_size o)%N) ->
      xstep a [SlNext INeedMore] (x_set_send a s1)
  | x_lit : forall a s1 w l rest i n,
      quiet (x_send a) = Some s1 -> x_mode a = ExCommand ->
      x_rest a = w ++ rest -> frag_line (NfLiteral (x_need a)) w l ->
      (N.of_nat (length (x_pre a ++ w)) <= so_max_command_size o)%N ->
      line_ok relaxed l -> dec_command K (x_pre a ++ w) = DecLit i ->
      cmd_accept o i = Some n ->
      xstep a [SlRx (SrxLit i)]
        (XState (x_gen a)
           (ss_push s1 (when_sync i (SmResponse None (accept_response o i))))
           ExCommand (x_pre a ++ w) (x_lits a ++ [i]) n rest)
  | x_msg : forall a s1 raw rest v,
      quiet (x_send a) = Some s1 -> x_buf a = raw ++ rest ->
      sframe K o (x_mode a) raw (x_lits a) v ->
      (N.of_nat (length raw) <= so_max_command_size o)%N ->
      xstep a [SlRx (SrxMsg raw v); SlNext (sresult raw v)]
        (x_start a (ss_push s1 (pushed_by o v)) (mode_after (x_mode a) v) rest)
  | x_toolong : forall a s1 raw rest,
      quiet (x_send a) = Some s1 -> x_mode a <> ExIdleAccept ->
      no_line (NfLiteral (x_need a)) (view mx (x_pre a) (x_rest a)) ->
      x_buf a = raw ++ rest -> N.of_nat (length raw) = so_max_command_size o ->
      xstep a [SlRx (SrxMsg raw SvTooLong); SlNext (IError (SerrCommandTooLong raw))]
        (x_start a s1 (x_mode a) rest).

  Inductive xsteps : xstate -> list slog -> xstate -> Prop :=
  | xs_nil : forall a, xsteps a [] a
  | xs_snoc : forall a l a1 l1 a2,
      xsteps a l a1 -> xstep a1 l1 a2 -> xsteps a (l ++ l1) a2.

  Lemma xsteps_one : forall a l a', xstep a l a' -> xsteps a l a'.
  Proof. intros. change l with ([] ++ l). econstructor; [constructor|assumption]. Qed.

  Lemma xsteps_trans : forall a l1 a1 l2 a2,
    xsteps a l1 a1 -> xsteps a1 l2 a2 -> xsteps a (l1 ++ l2) a2.
  Proof.
    intros a l1 a1 l2 a2 H1 H2. induction H2 as [a1|a1 l a3 l3 a4 H2 IH H3].
    - now rewrite app_nil_r.
    - rewrite app_assoc. econstructor; eauto.
  Qed.

  (** Well-formed states. *)
  Definition xwf (a : xstate) : Prop :=
    (N.of_nat (length (x_pre a)) <= so_max_command_size o)%N /\
    match x_mode a with
    | ExCommand => copened (x_pre a) (x_lits a) (x_need a)
    | _ => x_pre a = [] /\ x_lits a = [] /\ x_need a = 0%N
    end.

  Lemma xwf_start : forall a s m rest, xwf (x_start a s m rest).
  Proof. intros. split; [cbn; lia|]. destruct m; cbn; auto. constructor. Qed.

  Lemma xenqueue_wf : forall a r m a' h,
    xwf a -> (m = x_mode a \/ x_mode a <> ExCommand) -> xenqueue a r m = (a', h) -> xwf a'.
  Proof.
    intros a r m a' h (H1 & H2) Hm E. unfold xenqueue in E.
    destruct (hgen_generate (x_gen a)) as [g h0]. injection E as <- <-.
    split; [exact H1|]. cbn.
    destruct Hm as [->|Hm]; [exact H2|].
    assert (E0 : x_pre a = [] /\ x_lits a = [] /\ x_need a = 0%N)
      by (destruct (x_mode a); [congruence|exact H2..]).
    destruct E0 as (-> & -> & ->). destruct m; auto. constructor.
  Qed.

  Lemma xcall_wf : forall a p a' e, xwf a -> xcall a p = Some (a', e) -> xwf a'.
  Proof.
    intros a p a' e Hwf H.
    assert (X : forall r m e' a1 h1, xenqueue a r m = (a1, h1) ->
      m = x_mode a \/ x_mode a <> ExCommand -> Some (a1, e') = Some (a', e) -> xwf a').
    { intros r m e' a1 h1 E Hm EE. injection EE as <- _. eapply xenqueue_wf; eauto. }
    destruct p as [r|x|q|t|q|t|]; cbn [xcall] in H.
    - destruct (xenqueue a r (x_mode a)) as [a1 h1] eqn:E. eapply X; eauto.
    - injection H as <- _. exact Hwf.
    - destruct (x_mode a) eqn:Em; try (injection H as <- _; exact Hwf).
      destruct (xenqueue a _ _) as [a1 h1] eqn:E. eapply X; eauto.
    - destruct (x_mode a) eqn:Em; try (injection H as <- _; exact Hwf).
      destruct (xenqueue a _ _) as [a1 h1] eqn:E. eapply X; eauto. right. congruence.
    - destruct (x_mode a) eqn:Em; try (injection H as <- _; exact Hwf).
      destruct (xenqueue a _ _) as [a1 h1] eqn:E. eapply X; eauto. right. congruence.
    - destruct (x_mode a) eqn:Em; try (injection H as <- _; exact Hwf).
      destruct (xenqueue a _ _) as [a1 h1] eqn:E. eapply X; eauto. right. congruence.
    - discriminate.
  Qed.

  Lemma xstep_wf : forall a l a', xwf a -> xstep a l a' -> xwf a'.
  Proof.
    intros a l a' Hwf H. destruct H; try apply xwf_start; try exact Hwf.
    - eapply xcall_wf; eauto.
    - destruct Hwf as (H7 & H8). split; [assumption|]. cbn. rewrite H0 in H8.
      eapply opened_line; eauto.
  Qed.

  (** ** Simulation *)

  Definition srel (s : server) (a : xstate) : Prop :=
    s_opts s = o /\ s_gen s = x_gen a /\ s_send s = x_send a /\ xwf a /\
    match s_recv s, x_mode a with
    | SrCommand x, ExCommand | SrAuthenticateData x, ExAuthenticateData
    | SrIdleDone x, ExIdleDone => rpos relaxed mx x (x_pre a) (x_need a) (x_rest a)
    | SrIdleAccept x, ExIdleAccept =>
        rs_relaxed x = relaxed /\ rs_max x = mx /\ rs_buf x = x_rest a
    | _, _ => False
    end.

  Definition xnew (g : hgen) (gr : greeting) : xstate :=
    XState g (SSend [SmGreeting gr] None) ExCommand [] [] 0 [].

  Lemma xwf_new : forall g gr, xwf (xnew g gr).
  Proof. intros. split; cbn; [lia|constructor]. Qed.

  Lemma srel_new : forall g gr, srel (server_new g o gr) (xnew g gr).
  Proof.
    intros g gr. split; [reflexivity|]. split; [reflexivity|]. split; [reflexivity|].
    split; [apply xwf_new|]. apply (rpos_fresh relaxed mx []).
  Qed.

  (** Why [next] may panic. *)
  Definition xtrailing (a : xstate) : Prop :=
    exists s1 raw rest, quiet (x_send a) = Some s1 /\ x_buf a = raw ++ rest /\
      (N.of_nat (length raw) <= so_max_command_size o)%N /\
      match x_mode a with
      | ExCommand => exists m, command_frame K o raw (x_lits a) (OTrailing m)
      | ExAuthenticateData => exists m, authdata_frame K o raw [] (OTrailing m)
      | ExIdleDone => exists m, idledone_frame K o raw [] (OTrailing m)
      | ExIdleAccept => False
      end.

  (** One call of [next]: what was read, and the result. *)
  Inductive xnext : xstate -> list srx -> s_ires -> xstate -> Prop :=
  | xn_last : forall a g r a',
      xstep a (map SlRx g ++ [SlNext r]) a' -> xnext a g r a'
  | xn_lit : forall a i a1 g r a',
      xstep a [SlRx (SrxLit i)] a1 -> xnext a1 g r a' -> xnext a (SrxLit i :: g) r a'
  | xn_stuck : forall a a', xtrailing a -> xnext a [] IPanic a'.

  Lemma xnext_steps : forall a g r a', xnext a g r a' -> r <> IPanic ->
    xsteps a (map SlRx g ++ [SlNext r]) a'.
  Proof.
    intros a g r a' H Hp. induction H as [a g r a' H|a i a1 g r a' H _ IH|a a' H];
      [..|congruence].
    - now apply xsteps_one.
    - cbn [map app]. change (SlRx (SrxLit i) :: map SlRx g ++ [SlNext r])
        with ([SlRx (SrxLit i)] ++ (map SlRx g ++ [SlNext r])).
      eapply xsteps_trans; [apply xsteps_one; exact H|auto].
  Qed.

  Lemma xnext_wf : forall a g r a', xwf a -> xnext a g r a' -> r <> IPanic -> xwf a'.
  Proof.
    intros a g r a' Hwf H Hp. induction H as [a g r a' H|a i a1 g r a' H _ IH|a a' H];
      [..|congruence].
    - eapply xstep_wf; eauto.
    - apply IH; auto. eapply xstep_wf; eauto.
  Qed.

  (** *** [progress_send] *)

  Lemma progress_send_sim : forall s a s' r,
    srel s a -> server_progress_send K s = (s', r) ->
    match r with
    | INone => exists s1, quiet (x_send a) = Some s1 /\ s' = s_set_send s s1
    | IEvent _ | IOutput _ => exists a', srel s' a' /\ xstep a [SlNext r] a'
    | _ => False
    end.
  Proof.
    intros s a s' r Hrel H. pose proof Hrel as (Ho & Hg & Hs & Hwf & Hr).
    unfold server_progress_send, ss_next in H. rewrite Hs in H.
    destruct (ss_current (x_send a)) as [m|] eqn:Ec.
    - destruct m as [g|[h|] resp]; injection H as <- <-.
      + eexists. split; [|eapply x_sent; [exact Ec|reflexivity]].
        unfold srel. cbn. auto.
      + eexists. split; [|eapply x_sent; [exact Ec|reflexivity]].
        unfold srel. cbn. auto.
      + unfold quiet. rewrite Ec. eauto.
    - destruct (ss_queue (x_send a)) as [|m q] eqn:Eq; injection H as <- <-.
      + unfold quiet. rewrite Ec, Eq. eauto.
      + eexists. split; [|eapply x_out; eauto]. unfold srel. cbn. auto.
  Qed.

  (** *** [progress_receive] *)

  Lemma set_send_recv : forall s x y, s_set_send (s_set_recv s y) x = s_set_recv (s_set_send s x) y.
  Proof. reflexivity. Qed.

  (** The three outcomes of the reader. *)
  Lemma discard_sim : forall s wrap raw rest f v mk,
    server_discard s wrap (RState relaxed mx f (length raw) (raw ++ rest)) v mk
    = (s_set_recv s (wrap (fresh relaxed mx rest)), [SrxMsg raw v], IError (mk raw)).
  Proof.
    intros. unfold server_discard.
    destruct (skipn_seen (RState relaxed mx f (length raw) (raw ++ rest)) raw rest eq_refl eq_refl)
      as (_ & -> & _). reflexivity.
  Qed.

  Lemma finish_sim : forall s wrap raw rest f nx v e,
    server_finish s wrap (RState relaxed mx f (length raw) (raw ++ rest)) nx v e
    = match nx with
      | None => (s_set_recv s (wrap (fresh relaxed mx rest)), [SrxMsg raw v], IEvent e)
      | Some ex =>
          match sr_change_state (wrap (fresh relaxed mx rest)) ex with
          | Panic => (s_set_recv s (wrap (fresh relaxed mx rest)), [SrxMsg raw v], IPanic)
          | Val r => (s_set_recv s r, [SrxMsg raw v], IEvent e)
          end
      end.
  Proof.
    intros. unfold server_finish.
    destruct (skipn_seen (RState relaxed mx f (length raw) (raw ++ rest)) raw rest eq_refl eq_refl)
      as (-> & _ & ->). reflexivity.
  Qed.

  Lemma toolong_split : forall pre rest,
    limit mx (length (within mx (pre ++ rest))) = true ->
    exists raw r, within mx (pre ++ rest) = raw /\ pre ++ rest = raw ++ r /\
      N.of_nat (length raw) = so_max_command_size o.
  Proof.
    intros pre rest H. destruct (limit_within mx _ H) as (m & r & Hm & Hb & Hl).
    injection Hm as <-. eauto.
  Qed.

  Lemma below_limit : forall b, within mx b = b -> limit mx (length b) = false ->
    (N.of_nat (length b) < so_max_command_size o)%N.
  Proof.
    intros b Hw Hl. cbn [within limit] in *.
    destruct (N.leb (N.of_nat (length b)) (so_max_command_size o)) eqn:E; [lia|].
    apply (f_equal (@length byte)) in Hw. rewrite firstn_length in Hw. lia.
  Qed.

  Lemma ss_push_nil : forall s, ss_push s [] = s.
  Proof. intros [q c]. unfold ss_push. cbn. now rewrite app_nil_r. Qed.

  Lemma srel_start : forall s a s1 s2 m rest x,
    s_opts s = o -> s_gen s = x_gen a -> s1 = s2 ->
    match x, m with
    | SrCommand y, ExCommand | SrAuthenticateData y, ExAuthenticateData
    | SrIdleDone y, ExIdleDone | SrIdleAccept y, ExIdleAccept => y = fresh relaxed mx rest
    | _, _ => False
    end ->
    srel (s_set_recv (s_set_send s s1) x) (x_start a s2 m rest).
  Proof.
    intros s a s1 s2 m rest x Ho Hg -> H.
    split; [exact Ho|]. split; [exact Hg|]. split; [reflexivity|]. split; [apply xwf_start|].
    cbn. destruct x; destruct m; try contradiction; subst; try apply rpos_fresh.
    repeat split.
  Qed.

  Lemma reject_eq : forall i, RStatus (literal_reject_status o (cl_tag i)) = reject_response o i.
  Proof. reflexivity. Qed.

  Lemma progress_receive_sim : forall s a s1 s' g r,
    srel s a -> quiet (x_send a) = Some s1 ->
    server_progress_receive K (s_set_send s s1) = (s', g, r) ->
    match r with
    | INone => exists a' i, g = [SrxLit i] /\ srel s' a' /\ xstep a [SlRx (SrxLit i)] a' /\
                 length (x_rest a') < length (x_rest a)
    | INeedMore | IEvent _ | IError _ =>
        exists a', srel s' a' /\ xstep a (map SlRx g ++ [SlNext r]) a'
    | IPanic => g = [] /\ xtrailing a
    | _ => False
    end.
  Proof.
    intros s a s1 s' g r (Ho & Hg & Hs & Hwf & Hr) Hq H.
    unfold server_progress_receive in H.
    change (s_recv (s_set_send s s1)) with (s_recv s) in H.
    change (s_opts (s_set_send s s1)) with (s_opts s) in H.
    change (s_send (s_set_send s s1)) with s1 in H.
    pose proof Hwf as (Hlen & Hopen).
    destruct (s_recv s) as [x|x|x|x|] eqn:Er; destruct (x_mode a) eqn:Em; try contradiction.
    - (* command *)
      destruct (rpos_next (dec_command K) relaxed mx x _ _ _ Hr)
        as [(w & l & rest & Hrest & Hfl & Hfit & E)
           |[(Hno & Hw & Hlim & x' & E & Hpos)|(Hno & Hlim & f & E)]]; rewrite E in H.
      + pose proof (line_verdict_cases (dec_command K) relaxed (cmd_accept o) (x_pre a ++ w) l) as V.
        assert (Hbuf : x_buf a = (x_pre a ++ w) ++ rest)
          by (unfold x_buf; rewrite Hrest; now rewrite app_assoc).
        destruct (line_verdict (dec_command K) relaxed (x_pre a ++ w) l) eqn:EV; try contradiction.
        * assert (Hfr : sframe K o (x_mode a) (x_pre a ++ w) (x_lits a) (SvCommand m)).
          { rewrite Em. eapply opened_frame; eauto. }
          pose proof (x_msg a s1 (x_pre a ++ w) rest (SvCommand m) Hq Hbuf Hfr Hfit) as X.
          cbn [sresult pushed_by mode_after] in X. unfold command_event in X.
          destruct (cbody m) eqn:Eb; rewrite finish_sim in H; cbn in H; injection H as <- <- <-;
            (eexists; split; [|exact X]); apply srel_start; cbn [pushed_by mode_after]; rewrite ?ss_push_nil, ?Em; auto.
        * (* literal *)
          destruct V as (Hok & Hd). rewrite Ho in H.
          destruct (N.ltb (so_max_literal_size o) (cl_length l0)) eqn:Elit.
          -- assert (Ha : cmd_accept o l0 = None) by (unfold cmd_accept; now rewrite Elit).
             assert (Hfr : sframe K o (x_mode a) (x_pre a ++ w) (x_lits a) (SvLiteralTooLong l0)).
             { rewrite Em. eapply opened_frame; eauto. now constructor. }
             pose proof (x_msg a s1 (x_pre a ++ w) rest _ Hq Hbuf Hfr Hfit) as X.
             cbn [sresult pushed_by mode_after] in X. unfold when_sync in X.
             rewrite <- reject_eq in X.
             destruct (cl_mode l0); rewrite discard_sim in H; injection H as <- <- <-;
               (eexists; split; [|exact X]); apply srel_start; cbn [pushed_by mode_after]; rewrite ?ss_push_nil, ?Em; auto.
          -- assert (Ha : cmd_accept o l0 = Some (cl_length l0))
               by (unfold cmd_accept; now rewrite Elit).
             pose proof (x_lit a s1 w l rest l0 _ Hq Em Hrest Hfl Hfit Hok Hd Ha) as X.
             pose proof (xstep_wf _ _ _ Hwf X) as Hwf'.
             assert (Hlt : length rest < length (x_rest a)).
             { rewrite Hrest, app_length.
               enough (1 <= length w) by lia.
               inversion Hfl as [|n0 d0 l1 Hd0 Hl1]; subst. rewrite app_length.
               apply is_line_nonempty in Hl1. lia. }
             assert (Hp : rpos relaxed mx
               (rs_start_literal (RState relaxed mx (NfLine 0) (length (x_pre a ++ w))
                                    ((x_pre a ++ w) ++ rest)) (cl_length l0))
               (x_pre a ++ w) (cl_length l0) rest).
             { repeat split. left. repeat split; auto. }
             unfold when_sync in X, Hwf'.
             destruct (cl_mode l0); injection H as <- <- <-;
               (eexists; exists l0; split; [reflexivity|]; split; [|split; [exact X|exact Hlt]]);
               unfold srel; split; [exact Ho| |exact Ho|]; split; try exact Hg;
               split; try (exact (conj Hwf' Hp)); try reflexivity.
             ++ unfold ss_push. cbn. rewrite app_nil_r. destruct s1; reflexivity.
        * assert (Hfr : sframe K o (x_mode a) (x_pre a ++ w) (x_lits a) SvMalformed).
          { rewrite Em. eapply opened_frame; eauto. }
          rewrite discard_sim in H. injection H as <- <- <-.
          eexists. split; [|exact (x_msg a s1 _ rest _ Hq Hbuf Hfr Hfit)].
          apply srel_start; cbn [pushed_by mode_after]; rewrite ?ss_push_nil, ?Em; auto.
        * assert (Hfr : sframe K o (x_mode a) (x_pre a ++ w) (x_lits a) SvBareLf).
          { rewrite Em. eapply opened_frame; eauto. }
          rewrite discard_sim in H. injection H as <- <- <-.
          eexists. split; [|exact (x_msg a s1 _ rest _ Hq Hbuf Hfr Hfit)].
          apply srel_start; cbn [pushed_by mode_after]; rewrite ?ss_push_nil, ?Em; auto.
        * injection H as <- <- <-. split; [reflexivity|].
          destruct V as (m & V). exists s1, (x_pre a ++ w), rest.
          split; [exact Hq|]. split; [exact Hbuf|]. split; [exact Hfit|].
          rewrite Em. exists m. eapply opened_frame; eauto.
      + injection H as <- <- <-. eexists. split; [|eapply (x_need_more a s1 Hq)].
        * unfold srel. cbn. rewrite Em. auto.
        * right. split; [exact Hno|]. now apply below_limit.
      + destruct (toolong_split _ _ Hlim) as (raw & rest & Ew & Hbuf & Hraw).
        rewrite Ew, Hbuf in H. rewrite discard_sim in H. injection H as <- <- <-.
        eexists. split; [|eapply (x_toolong a s1 raw rest Hq)]; auto; try congruence.
        apply srel_start; cbn [pushed_by mode_after]; rewrite ?Em; auto.
    - (* authenticate data *)
      destruct Hopen as (Hp0 & Hl0 & Hn0).
      destruct (rpos_next (dec_authdata K) relaxed mx x _ _ _ Hr)
        as [(w & l & rest & Hrest & Hfl & Hfit & E)
           |[(Hno & Hw & Hlim & x' & E & Hpos)|(Hno & Hlim & f & E)]]; rewrite E in H.
      + pose proof (line_verdict_cases (dec_authdata K) relaxed accept_none (x_pre a ++ w) l) as V.
        assert (Hbuf : x_buf a = (x_pre a ++ w) ++ rest)
          by (unfold x_buf; rewrite Hrest; now rewrite app_assoc).
        assert (Hop : opened (dec_authdata K) relaxed accept_none (x_pre a) [] (x_need a))
          by (rewrite Hp0, Hn0; constructor).
        destruct (line_verdict (dec_authdata K) relaxed (x_pre a ++ w) l) eqn:EV; try contradiction.
        * assert (Hfr : sframe K o (x_mode a) (x_pre a ++ w) (x_lits a) (SvAuthData m)).
          { rewrite Em. split; [exact Hl0|]. eapply opened_frame; eauto. }
          rewrite finish_sim in H. injection H as <- <- <-.
          eexists. split; [|exact (x_msg a s1 _ rest _ Hq Hbuf Hfr Hfit)].
          apply srel_start; cbn [pushed_by mode_after]; rewrite ?ss_push_nil, ?Em; auto.
        * assert (Hfr : sframe K o (x_mode a) (x_pre a ++ w) (x_lits a) SvMalformed).
          { rewrite Em. split; [exact Hl0|]. eapply opened_frame; eauto. }
          rewrite discard_sim in H. injection H as <- <- <-.
          eexists. split; [|exact (x_msg a s1 _ rest _ Hq Hbuf Hfr Hfit)].
          apply srel_start; cbn [pushed_by mode_after]; rewrite ?ss_push_nil, ?Em; auto.
        * assert (Hfr : sframe K o (x_mode a) (x_pre a ++ w) (x_lits a) SvBareLf).
          { rewrite Em. split; [exact Hl0|]. eapply opened_frame; eauto. }
          rewrite discard_sim in H. injection H as <- <- <-.
          eexists. split; [|exact (x_msg a s1 _ rest _ Hq Hbuf Hfr Hfit)].
          apply srel_start; cbn [pushed_by mode_after]; rewrite ?ss_push_nil, ?Em; auto.
        * injection H as <- <- <-. split; [reflexivity|].
          destruct V as (m & V). exists s1, (x_pre a ++ w), rest.
          split; [exact Hq|]. split; [exact Hbuf|]. split; [exact Hfit|].
          rewrite Em. exists m. eapply opened_frame; eauto.
      + injection H as <- <- <-. eexists. split; [|eapply (x_need_more a s1 Hq)].
        * unfold srel. cbn. rewrite Em. auto.
        * right. split; [exact Hno|]. now apply below_limit.
      + destruct (toolong_split _ _ Hlim) as (raw & rest & Ew & Hbuf & Hraw).
        rewrite Ew, Hbuf in H. rewrite discard_sim in H. injection H as <- <- <-.
        eexists. split; [|eapply (x_toolong a s1 raw rest Hq)]; auto; try congruence.
        apply srel_start; cbn [pushed_by mode_after]; rewrite ?Em; auto.
    - (* waiting for idle_accept *)
      injection H as <- <- <-. exists (x_set_send a s1). split.
      + unfold srel. cbn. rewrite Er, Em. auto.
      + apply x_need_more; auto.
    - (* DONE *)
      destruct Hopen as (Hp0 & Hl0 & Hn0).
      destruct (rpos_next (dec_idledone K) relaxed mx x _ _ _ Hr)
        as [(w & l & rest & Hrest & Hfl & Hfit & E)
           |[(Hno & Hw & Hlim & x' & E & Hpos)|(Hno & Hlim & f & E)]]; rewrite E in H.
      + pose proof (line_verdict_cases (dec_idledone K) relaxed accept_none (x_pre a ++ w) l) as V.
        assert (Hbuf : x_buf a = (x_pre a ++ w) ++ rest)
          by (unfold x_buf; rewrite Hrest; now rewrite app_assoc).
        assert (Hop : opened (dec_idledone K) relaxed accept_none (x_pre a) [] (x_need a))
          by (rewrite Hp0, Hn0; constructor).
        destruct (line_verdict (dec_idledone K) relaxed (x_pre a ++ w) l) eqn:EV; try contradiction.
        * destruct m.
          assert (Hfr : sframe K o (x_mode a) (x_pre a ++ w) (x_lits a) SvIdleDone).
          { rewrite Em. split; [exact Hl0|]. eapply opened_frame; eauto. }
          rewrite finish_sim in H. cbn in H. injection H as <- <- <-.
          eexists. split; [|exact (x_msg a s1 _ rest _ Hq Hbuf Hfr Hfit)].
          apply srel_start; cbn [pushed_by mode_after]; rewrite ?ss_push_nil; auto.
        * assert (Hfr : sframe K o (x_mode a) (x_pre a ++ w) (x_lits a) SvMalformed).
          { rewrite Em. split; [exact Hl0|]. eapply opened_frame; eauto. }
          rewrite discard_sim in H. injection H as <- <- <-.
          eexists. split; [|exact (x_msg a s1 _ rest _ Hq Hbuf Hfr Hfit)].
          apply srel_start; cbn [pushed_by mode_after]; rewrite ?ss_push_nil, ?Em; auto.
        * assert (Hfr : sframe K o (x_mode a) (x_pre a ++ w) (x_lits a) SvBareLf).
          { rewrite Em. split; [exact Hl0|]. eapply opened_frame; eauto. }
          rewrite discard_sim in H. injection H as <- <- <-.
          eexists. split; [|exact (x_msg a s1 _ rest _ Hq Hbuf Hfr Hfit)].
          apply srel_start; cbn [pushed_by mode_after]; rewrite ?ss_push_nil, ?Em; auto.
        * injection H as <- <- <-. split; [reflexivity|].
          destruct V as (m & V). exists s1, (x_pre a ++ w), rest.
          split; [exact Hq|]. split; [exact Hbuf|]. split; [exact Hfit|].
          rewrite Em. exists m. eapply opened_frame; eauto.
      + injection H as <- <- <-. eexists. split; [|eapply (x_need_more a s1 Hq)].
        * unfold srel. cbn. rewrite Em. auto.
        * right. split; [exact Hno|]. now apply below_limit.
      + destruct (toolong_split _ _ Hlim) as (raw & rest & Ew & Hbuf & Hraw).
        rewrite Ew, Hbuf in H. rewrite discard_sim in H. injection H as <- <- <-.
        eexists. split; [|eapply (x_toolong a s1 raw rest Hq)]; auto; try congruence.
        apply srel_start; cbn [pushed_by mode_after]; rewrite ?Em; auto.
  Qed.

  (** *** [next] *)

  Lemma server_buf_rel : forall s a, srel s a -> server_buf s = x_buf a.
  Proof.
    intros s a (_ & _ & _ & (_ & Hw) & H). unfold server_buf, x_buf.
    destruct (s_recv s) as [x|x|x|x|]; destruct (x_mode a); try contradiction; cbn;
      try (destruct H as (_ & _ & H & _); exact H).
    destruct Hw as (-> & _). destruct H as (_ & _ & H). exact H.
  Qed.

  Lemma next_loop_sim : forall fuel s a s' g r,
    srel s a -> length (x_rest a) < fuel ->
    server_next_loop K fuel s = (s', g, r) ->
    exists a', xnext a g r a' /\ r <> INone /\ r <> IFuel /\ (r <> IPanic -> srel s' a').
  Proof.
    induction fuel as [|fuel IH]; intros s a s' g r Hrel Hf H; [lia|].
    cbn [server_next_loop] in H.
    destruct (server_progress_send K s) as [s1 r1] eqn:Es.
    pose proof (progress_send_sim s a s1 r1 Hrel Es) as S1.
    destruct r1; try contradiction; try (injection H as <- <- <-).
    - destruct S1 as (a1 & R1 & S1). exists a1.
      split; [apply xn_last; exact S1|]. split; [discriminate|]. split; [discriminate|auto].
    - destruct S1 as (ss & Hq & ->).
      destruct (server_progress_receive K (s_set_send s ss)) as [[s2 g2] r2] eqn:Er.
      pose proof (progress_receive_sim s a ss s2 g2 r2 Hrel Hq Er) as S2.
      destruct r2; try contradiction; try (injection H as <- <- <-);
        try (destruct S2 as (a2 & R2 & S2); exists a2;
             split; [apply xn_last; exact S2|];
             split; [discriminate|]; split; [discriminate|auto]).
      + destruct S2 as (a2 & i & -> & R2 & S2 & Hlen).
        destruct (server_next_loop K fuel s2) as [[s3 g3] r3] eqn:En.
        injection H as <- <- <-.
        destruct (IH s2 a2 s3 g3 r3 R2 ltac:(lia) En) as (a3 & S3 & Hn & Hfu & R3).
        exists a3. split; [eapply xn_lit; eauto|]. auto.
      + destruct S2 as [-> S2]. exists a. split; [now apply xn_stuck|].
        split; [discriminate|]. split; [discriminate|congruence].
    - destruct S1 as (a1 & R1 & S1). exists a1.
      split; [apply xn_last; exact S1|]. split; [discriminate|]. split; [discriminate|auto].
  Qed.

  Lemma server_next_sim : forall s a s' g r,
    srel s a -> server_next K s = (s', g, r) ->
    exists a', xnext a g r a' /\ r <> INone /\ r <> IFuel /\ (r <> IPanic -> srel s' a').
  Proof.
    intros s a s' g r Hrel H. eapply next_loop_sim; [exact Hrel| |exact H].
    unfold server_fuel. rewrite (server_buf_rel s a Hrel). unfold x_buf. rewrite app_length. lia.
  Qed.

  (** *** Calls *)

  Lemma server_call_sim : forall s a p s' l,
    srel s a -> p <> SopNext -> server_step K s p = (Some s', l) ->
    exists a' e, l = [e] /\ xcall a p = Some (a', e) /\ srel s' a'.
  Proof.
    intros s a p s' l Hrel Hp H. pose proof Hrel as (Ho & Hg & Hs & Hwf & Hr).
    destruct p as [r|x|q|t|q|t|]; [..|congruence]; unfold server_step in H.
    - cbn in H. injection H as <- <-.
      eexists. eexists. split; [reflexivity|]. split; [cbn; rewrite <- Hg; reflexivity|].
      unfold srel. cbn. rewrite Hs. repeat split; auto; apply Hwf.
    - unfold server_enqueue_input in H.
      assert (Hwf' : xwf (XState (x_gen a) (x_send a) (x_mode a) (x_pre a) (x_lits a) (x_need a)
                (x_rest a ++ x))) by (split; apply Hwf).
      destruct (s_recv s) as [y|y|y|y|] eqn:Er; destruct (x_mode a) eqn:Em; try contradiction;
        injection H as <- <-; eexists; eexists; (split; [reflexivity|]);
        (split; [cbn; rewrite Em; reflexivity|]);
        unfold srel; cbn [x_mode x_gen x_send x_pre x_need x_rest s_recv s_set_recv s_opts s_gen s_send];
        (split; [exact Ho|split; [exact Hg|split; [exact Hs|split; [exact Hwf'|]]]]);
        try (now apply rpos_add).
      destruct Hr as (H1 & H2 & H3). repeat split; auto. cbn. now rewrite H3.
    - unfold server_authenticate_continue in H.
      destruct (s_recv s) as [y|y|y|y|] eqn:Er; destruct (x_mode a) eqn:Em; try contradiction;
        cbn in H; injection H as <- <-; eexists; eexists; (split; [reflexivity|]).
      all: try (split; [cbn; rewrite Em; reflexivity|exact Hrel]).
      split; [cbn; rewrite Em, <- Hg; reflexivity|].
      unfold srel. cbn. rewrite Hs, Er.
      split; [exact Ho|]. split; [reflexivity|]. split; [reflexivity|].
      split; [|exact Hr]. destruct Hwf as (W1 & W2). rewrite Em in W2. split; assumption.
    - unfold server_authenticate_finish, server_enqueue_and_change in H.
      destruct (s_recv s) as [y|y|y|y|] eqn:Er; destruct (x_mode a) eqn:Em; try contradiction;
        cbn in H; rewrite ?Er in H; cbn in H; injection H as <- <-; eexists; eexists; (split; [reflexivity|]).
      all: try (split; [cbn; rewrite Em; reflexivity|exact Hrel]).
      split; [cbn; rewrite Em, <- Hg; reflexivity|].
      destruct Hwf as (W1 & W2). rewrite Em in W2. destruct W2 as (P1 & P2 & P3).
      destruct Hr as (R1 & R2 & R3 & _). rewrite P1 in R3. simpl in R3.
      unfold srel. cbn. rewrite Hs, P1, P2, P3.
      split; [exact Ho|]. split; [reflexivity|]. split; [reflexivity|].
      split; [split; cbn; [lia|try constructor; auto]|].
      unfold rs_change_codec. rewrite R1, R2, R3. apply (rpos_fresh relaxed mx).
    - unfold server_idle_accept, server_enqueue_and_change in H.
      destruct (s_recv s) as [y|y|y|y|] eqn:Er; destruct (x_mode a) eqn:Em; try contradiction;
        cbn in H; rewrite ?Er in H; cbn in H; injection H as <- <-; eexists; eexists; (split; [reflexivity|]).
      all: try (split; [cbn; rewrite Em; reflexivity|exact Hrel]).
      split; [cbn; rewrite Em, <- Hg; reflexivity|].
      destruct Hwf as (W1 & W2). rewrite Em in W2. destruct W2 as (P1 & P2 & P3).
      destruct Hr as (R1 & R2 & R3).
      unfold srel. cbn. rewrite Hs, P1, P2, P3.
      split; [exact Ho|]. split; [reflexivity|]. split; [reflexivity|].
      split; [split; cbn; [lia|try constructor; auto]|].
      unfold rs_change_codec. rewrite R1, R2, R3. apply (rpos_fresh relaxed mx).
    - unfold server_idle_reject, server_enqueue_and_change in H.
      destruct (s_recv s) as [y|y|y|y|] eqn:Er; destruct (x_mode a) eqn:Em; try contradiction;
        cbn in H; rewrite ?Er in H; cbn in H; injection H as <- <-; eexists; eexists; (split; [reflexivity|]).
      all: try (split; [cbn; rewrite Em; reflexivity|exact Hrel]).
      split; [cbn; rewrite Em, <- Hg; reflexivity|].
      destruct Hwf as (W1 & W2). rewrite Em in W2. destruct W2 as (P1 & P2 & P3).
      destruct Hr as (R1 & R2 & R3).
      unfold srel. cbn. rewrite Hs, P1, P2, P3.
      split; [exact Ho|]. split; [reflexivity|]. split; [reflexivity|].
      split; [split; cbn; [lia|try constructor; auto]|].
      unfold rs_change_codec. rewrite R1, R2, R3. apply (rpos_fresh relaxed mx).
  Qed.

  (** Calls other than [next] never panic. *)
  Lemma server_call_ok : forall s a p,
    srel s a -> p <> SopNext -> exists s' l, server_step K s p = (Some s', l).
  Proof.
    intros s a p Hrel Hp. pose proof Hrel as (Ho & Hg & Hs & Hwf & Hr).
    destruct p as [r|x|q|t|q|t|]; [..|congruence]; unfold server_step;
      unfold server_enqueue_input, server_authenticate_continue, server_authenticate_finish,
        server_idle_accept, server_idle_reject, server_enqueue_and_change; cbn; eauto;
      destruct (s_recv s) as [y|y|y|y|] eqn:Er; destruct (x_mode a); try contradiction;
      cbn; rewrite ?Er; cbn; eauto.
  Qed.

  (** *** Steps and runs *)

  Lemma server_step_sim : forall s a p s' l,
    srel s a -> server_step K s p = (Some s', l) ->
    exists a', xsteps a l a' /\ srel s' a'.
  Proof.
    intros s a p s' l Hrel H.
    destruct (match p with SopNext => true | _ => false end) eqn:Ep.
    - destruct p; try discriminate. unfold server_step in H.
      destruct (server_next K s) as [[s1 g1] r1] eqn:E.
      destruct (server_next_sim s a s1 g1 r1 Hrel E) as (a' & S & _ & _ & R).
      destruct (s_is_panic r1) eqn:Epn; [discriminate|]. injection H as <- <-.
      assert (Hp : r1 <> IPanic) by (intros ->; discriminate).
      exists a'. split; [now apply xnext_steps|auto].
    - destruct (server_call_sim s a p s' l Hrel) as (a' & e & -> & E & R); auto.
      { intros ->. discriminate. }
      exists a'. split; [|exact R]. apply xsteps_one. eapply x_call; eauto.
  Qed.

  Lemma server_run_sim : forall ops s a s' l,
    srel s a -> server_run K s ops = (Some s', l) ->
    exists a', xsteps a l a' /\ srel s' a'.
  Proof.
    induction ops as [|p ops IH]; intros s a s' l Hrel H; cbn in H.
    - injection H as <- <-. exists a. split; [constructor|assumption].
    - destruct (server_step K s p) as [[s1|] l1] eqn:E; [|discriminate].
      destruct (server_run K s1 ops) as [s2 l2] eqn:E2. injection H as -> <-.
      destruct (server_step_sim s a p s1 l1 Hrel E) as (a1 & S1 & R1).
      destruct (IH s1 a1 s' l2 R1 E2) as (a2 & S2 & R2).
      exists a2. split; [eapply xsteps_trans; eauto|assumption].
  Qed.

  Lemma server_run_new : forall g gr ops s l,
    sran K g o gr ops s l -> exists a, xsteps (xnew g gr) l a /\ srel s a.
  Proof. intros g gr ops s l H. eapply server_run_sim; eauto. apply srel_new. Qed.
End Abs.
