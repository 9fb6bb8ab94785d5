(** What the applications of a connected client and server can expect. *)
From Coq Require Import List NArith Bool PeanoNat Lia ZifyBool ZifyNat ZifyN.
From Verif Require Import Base Types Codec Handle Receive ServerSend ClientSend Client Server
  SpecFraming SpecClient SpecServer ReceiveProofs ClientRecv ServerRecv ClientAbs ServerAbs
  System SystemAbs SpecSystem SystemLog SystemPos SystemResp SystemStage SystemServer SystemClient
  SystemThms SpecViews.
From Verif Require ClientInv ServerInv ClientProps.
Import ListNotations.

Lemma due_app : forall l l1, due (l ++ l1) = fold_left due_step l1 (due l).
Proof. intros. apply fold_left_app. Qed.
Lemma idles_app : forall l l1, idles (l ++ l1) = fold_left idles_step l1 (idles l).
Proof. intros. apply fold_left_app. Qed.

(** *** The current command and what the client's application was told *)

Definition due_cur (cur : option current_message) : bool :=
  match cur with
  | Some (CmAuthenticate _ _ AaWaitingForAuthenticateDataSet) => true
  | _ => false
  end.
Definition idles_cur (cur : option current_message) : bool :=
  match cur with
  | Some (CmIdle _ _ IaWaitingForIdleDoneSet) => true
  | _ => false
  end.

Section Client.
  Variable K : Codecs.
  Variable relaxed : bool.
  Notation cur_of a := (cs_current (a_send a)).

  Lemma next_cur : forall s s' r, cs_next K s = (s', r) ->
    due_cur (cs_current s') = due_cur (cs_current s) /\
    idles_cur (cs_current s') = idles_cur (cs_current s).
  Proof.
    assert (Go : forall q m s' r, cs_progress q m = (s', r) ->
      due_cur (cs_current s') = due_cur (Some m) /\ idles_cur (cs_current s') = idles_cur (Some m)).
    { intros q m s' r H. unfold cs_progress in H.
      destruct (cm_push_to_buffer m) as [b m1] eqn:Ep.
      assert (E : due_cur (Some m1) = due_cur (Some m) /\ idles_cur (Some m1) = idles_cur (Some m)).
      { destruct m as [h c fs act|h ca act|h t act]; cbn in Ep.
        - destruct act as [acc|lm|lit].
          + destruct (push_fragments fs) as [[o1 l1] f1]. injection Ep as <- <-. auto.
          + injection Ep as <- <-. auto.
          + injection Ep as <- <-. auto.
        - destruct act; injection Ep as <- <-; auto.
        - destruct act; injection Ep as <- <-; auto. }
      destruct b as [|b0 bs].
      - destruct (cm_finish_sending m1) as [m2 ev] eqn:Ef.
        injection H as <- <-. cbn [cs_current].
        destruct m1 as [h c fs [acc|[lit|]|lit]|h ca []|h t []]; cbn in Ef; injection Ef as <- <-; cbn in *; auto.
      - injection H as <- <-. cbn [cs_current]. exact E. }
    intros s s' r H. unfold cs_next in H.
    destruct (cs_current s) as [m|] eqn:Em; [eapply Go; eauto|].
    destruct (cs_queue s) as [|[h c] q].
    { injection H as <- <-. rewrite Em. auto. }
    destruct (queued_start K h c) as [m|] eqn:Eq.
    - apply Go in H. destruct H as [-> ->].
      unfold queued_start in Eq. destruct (cbody c).
      + destruct (single_line (enc_command K c)); cbn in Eq; [|discriminate]. injection Eq as <-. auto.
      + destruct (single_line (enc_command K c)); cbn in Eq; [|discriminate]. injection Eq as <-. auto.
      + injection Eq as <-. auto.
    - injection H as <- <-. cbn. auto.
  Qed.

  Lemma views_step : forall a l1 a', astep K relaxed a l1 a' ->
    fold_left due_step l1 (due_cur (cur_of a)) = due_cur (cur_of a') /\
    fold_left idles_step l1 (idles_cur (cur_of a)) = idles_cur (cur_of a').
  Proof.
    intros a l1 a' H.
    destruct H as [a cmd g0 h Hg|a y|a d s r H0|a s r H0|a s H0 H1|a s e H0 H1|a s b H0 H1
      |a H0 H1|a raw rest ls g0 H0 H1 H2|a raw rest ls q s H0 H1 H2 H3 H4
      |a raw rest ls m c' e H0 H1 H2 H3 H4|a raw rest v e H0 H1 H2]; cbn; auto.
    - unfold cs_set_authenticate_data in H0.
      destruct (cur_of a) as [[h c fs act|h ca act|h t act]|] eqn:Em;
        try (injection H0 as <- <-; rewrite Em; auto; fail).
      destruct act; try (injection H0 as <- <-; rewrite Em; auto; fail).
      destruct (single_line (enc_authdata K d)); cbn in H0; [|discriminate].
      injection H0 as <- <-. auto.
    - unfold cs_set_idle_done in H0.
      destruct (cur_of a) as [[h c fs act|h ca act|h t act]|] eqn:Em;
        try (injection H0 as <- <-; rewrite Em; auto; fail).
      destruct act; try (injection H0 as <- <-; rewrite Em; auto; fail).
      destruct (single_line (enc_idledone K)); cbn in H0; [|discriminate].
      injection H0 as <- <-. auto.
    - destruct (next_cur _ _ _ H1) as [-> ->]. auto.
    - destruct (next_cur _ _ _ H1) as [-> ->]. destruct e; auto.
    - destruct (next_cur _ _ _ H1) as [-> ->]. auto.
    - unfold cs_literal_continue in H4.
      destruct (cur_of a) as [[h c fs [| |]|h ca act|h t act]|] eqn:Em; try discriminate.
      injection H4 as <-. auto.
    - destruct m as [st|dd|q]; cbn in H4.
      + unfold cs_maybe_terminate in H4.
        destruct (cur_of a) as [[h c fs act|h ca act|h t act]|] eqn:Em; destruct st as [t0 b|b|cc tt];
          try (injection H4 as <- <-; cbn; rewrite Em; auto; fail).
        * destruct (status_kind_is_bad (sb_kind b) && bytes_eqb t0 (ctag c));
            injection H4 as <- <-; cbn; rewrite ?Em; auto.
        * destruct (bytes_eqb t0 (ca_tag ca)); [destruct (sb_kind b)|];
            injection H4 as <- <-; cbn; rewrite ?Em; auto.
        * destruct (bytes_eqb t0 t); injection H4 as <- <-; cbn; rewrite ?Em; auto.
      + injection H4 as <- <-. auto.
      + destruct (cs_literal_continue (a_send a)) as [s2 [|]] eqn:El; [discriminate|].
        assert (s2 = a_send a) as ->.
        { unfold cs_literal_continue in El.
          destruct (cur_of a) as [[h c fs [| |]|h ca act|h t act]|] eqn:Em;
            solve [discriminate | now injection El as <-]. }
        clear El.
        destruct (cs_authenticate_continue (a_send a)) as [s3 [h3|]] eqn:Ea.
        * injection H4 as <- <-. cbn. unfold cs_authenticate_continue in Ea.
          destruct (cur_of a) as [[h c fs act|h ca act|h t act]|] eqn:Em; try discriminate.
          destruct act; try discriminate. injection Ea as <- <-. auto.
        * assert (s3 = a_send a) as ->.
          { unfold cs_authenticate_continue in Ea.
            destruct (cur_of a) as [[h c fs act|h ca act|h t act]|] eqn:Em;
              try (now injection Ea as <-).
            destruct act; solve [discriminate | now injection Ea as <-]. }
          destruct (cs_idle_continue (a_send a)) as [s4 [h4|]] eqn:Ei.
          -- injection H4 as <- <-. cbn. unfold cs_idle_continue in Ei.
             destruct (cur_of a) as [[h c fs act|h ca act|h t act]|] eqn:Em; try discriminate.
             destruct act; try discriminate. injection Ei as <- <-. auto.
          -- injection H4 as <- <-. cbn. unfold cs_idle_continue in Ei.
             destruct (cur_of a) as [[h c fs act|h ca act|h t act]|] eqn:Em;
               try (injection Ei as <-; rewrite ?Em; auto; fail).
             destruct act; solve [discriminate | injection Ei as <-; rewrite ?Em; auto].
  Qed.

  Lemma views_steps : forall g l a, asteps K relaxed (astate_new g) l a ->
    due l = due_cur (cur_of a) /\ idles l = idles_cur (cur_of a).
  Proof.
    intros g l a H. remember (astate_new g) as a0 eqn:E.
    induction H as [a|a l a1 l1 a2 H IH H1]; subst; [auto|].
    destruct (IH eq_refl) as [E1 E2]. destruct (views_step _ _ _ H1) as [F1 F2].
    rewrite due_app, idles_app, E1, E2. auto.
  Qed.
End Client.

(** *** What the server has completed *)

Definition sound_verdict (r : bytes * sverdict) : Prop :=
  match snd r with
  | SvMalformed | SvBareLf | SvTooLong => False
  | _ => True
  end.

Definition idle_open (m : expected) (vs : list (bytes * sverdict)) (op : option tag) : Prop :=
  match m with
  | ExIdleAccept | ExIdleDone =>
      exists vs0 raw c, vs = vs0 ++ [(raw, SvCommand c)] /\ cbody c = BIdle /\ op = Some (ctag c)
  | _ => True
  end.

Definition completes (vs : list (bytes * sverdict)) (t : tag) : Prop :=
  exists c, ctag c = t /\
    ((regular c /\ exists raw, In (raw, SvCommand c) vs) \/
     (cbody c = BIdle /\ exists vs0 r r' vs1, vs = vs0 ++ (r, SvCommand c) :: (r', SvIdleDone) :: vs1)).

Lemma completes_app : forall vs vs' t, completes vs t -> completes (vs ++ vs') t.
Proof.
  intros vs vs' t (c & E & [(H & raw & Hin)|(H & vs0 & r & r' & vs1 & ->)]); exists c; split; auto.
  - left. split; auto. exists raw. apply in_or_app. now left.
  - right. split; auto. exists vs0, r, r', (vs1 ++ vs'). now rewrite <- app_assoc.
Qed.

Section Server.
  Variable K : Codecs.
  Variable o : soptions.
  Variable gs : hgen.
  Variable gr : greeting.

  Lemma completes_steps : forall l x, xsteps K o (xnew gs gr) l x -> Forall sound_verdict (staken l) ->
    idle_open (x_mode x) (staken l) (open_tag l) /\
    (forall t, In t (completed l) -> completes (staken l) t).
  Proof.
    intros l x H. remember (xnew gs gr) as x0 eqn:E0.
    induction H as [x|x l x1 l1 x2 H IH H1]; intro Hs; subst.
    { split; [exact I|intros t []]. }
    rewrite ServerInv.staken_app in Hs. apply Forall_app in Hs as [Hs Hs1].
    destruct (IH eq_refl Hs) as [I1 I2]. clear IH.
    assert (Keep : staken l1 = [] -> completed_from (open_tag l) l1 = [] ->
      fold_left open_step l1 (open_tag l) = open_tag l ->
      (x_mode x2 = x_mode x1 \/ x_mode x2 = ExCommand \/
       (x_mode x1 = ExIdleAccept /\ x_mode x2 = ExIdleDone)) ->
      idle_open (x_mode x2) (staken (l ++ l1)) (open_tag (l ++ l1)) /\
      (forall t, In t (completed (l ++ l1)) -> completes (staken (l ++ l1)) t)).
    { intros E1 E2 E3 Em. rewrite ServerInv.staken_app, E1, app_nil_r, open_tag_app, E3, completed_app, E2, app_nil_r.
      split; [|exact I2]. destruct Em as [->|[->|[E ->]]]; [exact I1|exact I|].
      rewrite E in I1. exact I1. }
    destruct H1 as [x p x' e Hx|x m q E1 E2|x m e E1 E2|x s1 E1 E2
      |x s1 w ln rest i n E1 E2 E3 E4 E5 E6 E7 E8|x s1 raw rest v E1 E2 E3 E4
      |x s1 raw rest E1 E2 E3 E4 E5].
    - destruct p as [r|y|q|t|q|t|]; cbn in Hx; try discriminate.
      + injection Hx as <- <-. apply Keep; auto.
      + injection Hx as <- <-. apply Keep; auto.
      + destruct (x_mode x) eqn:Em; injection Hx as <- <-; apply Keep; auto; cbn; rewrite ?Em; auto.
      + destruct (x_mode x) eqn:Em; injection Hx as <- <-; apply Keep; auto; cbn; rewrite ?Em; auto.
      + destruct (x_mode x) eqn:Em; injection Hx as <- <-; apply Keep; auto; cbn; rewrite ?Em; auto.
      + destruct (x_mode x) eqn:Em; injection Hx as <- <-; apply Keep; auto; cbn; rewrite ?Em; auto.
    - apply Keep; auto.
    - destruct m as [g|[h|] r]; cbn in E2; try discriminate; injection E2 as <-; apply Keep; auto.
    - apply Keep; auto.
    - apply Keep; auto.
    - rewrite ServerInv.staken_app, open_tag_app, completed_app. cbn [staken].
      assert (Old : forall t, In t (completed l) -> completes (staken l ++ [(raw, v)]) t).
      { intros t Ht. apply completes_app. auto. }
      cbn [x_mode x_start]. unfold sframe in E3.
      destruct (x_mode x) eqn:Em; try contradiction.
      + destruct v as [c|d| |i| | |]; try contradiction; cbn.
        * unfold command_event. destruct (cbody c) as [mech ir| |p] eqn:Eb; cbn.
          -- split; [exact I|]. intro t. rewrite app_nil_r. apply Old.
          -- split; [exists (staken l), raw, c; auto|]. intro t. rewrite app_nil_r. apply Old.
          -- split; [exact I|]. intros t Ht. apply in_app_or in Ht as [Ht|[<-|[]]]; [now apply Old|].
             exists c. split; [reflexivity|]. left. split; [now exists p|]. exists raw.
             apply in_or_app. right. now left.
        * split; [exact I|]. intro t. rewrite app_nil_r. apply Old.
        * split; [exact I|]. intro t. rewrite app_nil_r. apply Old.
        * split; [exact I|]. intro t. rewrite app_nil_r. apply Old.
      + destruct E3 as [_ E3]. destruct v as [c|d| |i| | |]; try contradiction; cbn;
          (split; [exact I|]; intro t; rewrite app_nil_r; apply Old).
      + destruct E3 as [_ E3]. cbn in Hs1. inversion Hs1 as [|? ? Hv _]; subst. cbn in Hv.
        destruct v as [c|d| |i| | |]; try contradiction; cbn.
        split; [exact I|]. intros t Ht. apply in_app_or in Ht as [Ht|Ht]; [now apply Old|].
        rewrite app_nil_r in Ht. cbn in I1. destruct I1 as (vs0 & r & c & Ev & Eb & Eo).
        rewrite Eo in Ht. destruct Ht as [<-|[]]. exists c. split; [reflexivity|]. right.
        split; [exact Eb|]. exists vs0, r, raw, []. now rewrite Ev, <- app_assoc.
    - cbn in Hs1. inversion Hs1 as [|? ? Hv _]. contradiction.
  Qed.
End Server.

(** *** Together *)

Lemma app_split : forall {A} (x1 x2 la lb : list A) e, x1 ++ x2 = la ++ e :: lb ->
  (exists lb', x1 = la ++ e :: lb') \/ (exists la', la = x1 ++ la' /\ x2 = la' ++ e :: lb).
Proof.
  intros A x1. induction x1 as [|x x1 IH]; intros x2 la lb e E; [right; exists la; auto|].
  destruct la as [|y la]; cbn in E; injection E as -> E; [left; exists x1; reflexivity|].
  destruct (IH _ _ _ _ E) as [(lb' & ->)|(la' & -> & E2)]; [left; exists lb'; auto|right; exists la'; auto].
Qed.

Lemma Forall2_len : forall {A B} {P : A -> B -> Prop} {xs ys}, Forall2 P xs ys -> length xs = length ys.
Proof. intros A B P xs ys H. induction H; cbn; auto. Qed.

Definition block (rs : list request) : Prop :=
  rs = [] \/ exists c xs, rs = RqCommand c :: answers xs.

Lemma blocks_adjacent : forall (f : nat -> list request) c ks a b,
  (forall k, block (f k)) -> flat_map f ks = a ++ RqCommand c :: RqDone :: b ->
  exists k b', In k ks /\ f k = RqCommand c :: RqDone :: b'.
Proof.
  intros f c ks. induction ks as [|k ks IH]; intros a b Hb E; [destruct a; discriminate|].
  cbn in E. destruct (Hb k) as [Ek|(c' & xs & Ek)].
  - rewrite Ek in E. destruct (IH a b Hb E) as (k' & b' & Hin & Hk). exists k', b'. split; [now right|exact Hk].
  - destruct a as [|q a].
    + exists k. rewrite Ek in E. cbn in E. injection E as -> E. rewrite Ek.
      destruct (answers xs) as [|q ys] eqn:Ex.
      * exfalso. destruct ks as [|k' ks]; [discriminate|]. clear IH Ek. cbn [app] in E.
        assert (Hcmd : forall ks0 b0, flat_map f ks0 <> RqDone :: b0).
        { clear - Hb. induction ks0 as [|k0 ks0 IH0]; intros b0 E; [discriminate|]. cbn in E.
          destruct (Hb k0) as [Ek|(c' & xs & Ek)]; rewrite Ek in E; [now apply IH0 in E|discriminate]. }
        now apply Hcmd in E.
      * injection E as -> _. exists ys. split; [now left|reflexivity].
    + rewrite Ek in E. cbn in E. injection E as _ E.
      (* the command is not among the answers *)
      assert (Hsplit : forall ys a0, ~ (exists c0, In (RqCommand c0) ys) ->
        ys ++ flat_map f ks = a0 ++ RqCommand c :: RqDone :: b ->
        exists a1, flat_map f ks = a1 ++ RqCommand c :: RqDone :: b).
      { clear. induction ys as [|y ys IHy]; intros a0 Hn E; [eauto|].
        destruct a0 as [|q0 a0].
        - cbn in E. injection E as -> _. exfalso. apply Hn. exists c. now left.
        - cbn in E. injection E as _ E. apply (IHy a0); auto.
          intros (c0 & Hc). apply Hn. exists c0. now right. }
      destruct (Hsplit (answers xs) a) as (a1 & E1).
      * intros (c0 & Hc). now apply answers_cmd in Hc.
      * exact E.
      * destruct (IH a1 b Hb E1) as (k' & b' & Hin & Hk). exists k', b'. split; [now right|exact Hk].
Qed.

Lemma segment_block : forall l k, block (segment_requests l k).
Proof.
  intros l k. unfold segment_requests. destruct (nth_error (enqueued l) k) as [[h c]|]; [|now left].
  right. eauto.
Qed.

Lemma exchange_done : forall l h, In (XDone h) (exchange l) -> In (ClSetDone (Some h)) l.
Proof.
  induction l as [|e l IH]; intros h H; [contradiction|].
  destruct e as [| |d0 [h0|]|[h0|]| |[[]| | | | | |]|]; cbn in H; try (right; auto; fail);
    destruct H as [H|H]; try discriminate; try (right; auto; fail).
  injection H as ->. now left.
Qed.

Lemma answers_xdone : forall xs, In RqDone (answers xs) -> exists h, In (XDone h) xs.
Proof.
  induction xs as [|e xs IH]; intro H; [contradiction|].
  assert (Rest : In RqDone (answers xs) -> exists h, In (XDone h) (e :: xs)).
  { intro H0. destruct (IH H0) as (h & Hh). exists h. now right. }
  destruct e; cbn in H; auto; destruct H as [H|H]; try discriminate; auto.
  eexists. now left.
Qed.

Section Joint.
  Variable K : Codecs.
  Variable relaxed : bool.
  Variable o : soptions.
  Variable gc gs : hgen.
  Variable gr : greeting.

  Notation zsteps := (zsteps K relaxed o).
  Notation cur_of a := (cs_current (a_send a)).
  Notation jinv := (jinv K o gr).
  Notation orderly := (orderly K relaxed o gr).

  Lemma rounds_done : forall h h' xs ds, rounds h xs ds -> ~ In (XDone h') xs.
  Proof.
    intros h h' xs ds R. induction R as [|xs ds q d R IH]; intro H; [exact H|].
    apply in_app_or in H as [H|[H|[H|[]]]]; [auto|discriminate..].
  Qed.

  Lemma conversation_done : forall h c b xs n t h', conversation K h c b xs n t ->
    In (XDone h') xs -> h' = h.
  Proof.
    intros h c b xs n t h' Hv Hin.
    destruct Hv as [Hr|pre d post s Hr He|ca line xs ds lines tl s E1 E2 Hr E3 Htl E4
      |line tl s E1 E2 Htl E4|line q dn E1 E2 E3]; try contradiction.
    - destruct Hin as [Hin|Hin]; [discriminate|].
      apply in_app_or in Hin as [Hin|Hin]; [now apply (rounds_done _ _ _ _ Hr) in Hin|].
      destruct Htl as [->|(q & ->)]; cbn in Hin; intuition discriminate.
    - destruct Hin as [Hin|Hin]; [discriminate|].
      destruct Htl as [->|(q & ->)]; cbn in Hin; intuition discriminate.
    - cbn in Hin. intuition congruence.
  Qed.

  Lemma conversing_done : forall h c b xs n h', conversing K h c b xs n ->
    In (XDone h') xs -> h' = h.
  Proof.
    intros h c b xs n h' Hv Hin.
    destruct Hv as [|pre post Hr He|pre d post Hr He|ca line E1 E2
      |ca line xs ds lines tl E1 E2 Hr E3 Htl|line xs E1 E2 Hxs|line q dn E1 E2 E3]; try contradiction.
    - destruct Hin as [Hin|Hin]; [discriminate|].
      apply in_app_or in Hin as [Hin|Hin]; [now apply (rounds_done _ _ _ _ Hr) in Hin|].
      destruct Htl as [->|[(q & ->)|(q & d & x & -> & _)]]; cbn in Hin; intuition discriminate.
    - destruct Hxs as [->|[->|[(q & ->)|(q & ->)]]]; cbn in Hin; intuition congruence.
    - cbn in Hin. intuition congruence.
  Qed.

  (** "DONE" is given for the command it belongs to. *)
  Lemma done_handle : forall a l k h c, ClientInv.conv_inv K a l ->
    nth_error (enqueued l) k = Some (h, c) -> In RqDone (segment_requests l k) ->
    In (XDone h) (exchange (segment k l)).
  Proof.
    intros a l k h c Hc Hk Hin. unfold segment_requests in Hin. rewrite Hk in Hin.
    destruct Hin as [Hin|Hin]; [discriminate|].
    apply answers_xdone in Hin as (h' & Hin).
    assert (Hs : In (XDone h') (exchange (segment k l)) -> h' = h).
    { destruct (Nat.lt_trichotomy k (length (terminals l))) as [Hlt|[->|Hgt]].
      - destruct (ClientProps.conv_done K a l k h c Hc Hk Hlt) as (t & _ & Hv & _).
        eapply conversation_done; eauto.
      - destruct (ClientProps.conv_current_conversing K a l h c Hc Hk) as [Hv _].
        eapply conversing_done; eauto.
      - rewrite ClientInv.segment_ge by assumption. contradiction. }
    apply Hs in Hin as E. now subst h'.
  Qed.

  Lemma read_finished : forall l z rd items pre1 G R cs,
    zsteps (znew gc gs gr) l z ->
    jinv l (z_a z) (z_x z) (z_toS z) rd items pre1 G R cs ->
    ClientInv.conv_inv K (z_a z) (clogs l) ->
    forall t, In t (completed (slogs l)) -> finished (clogs l) t.
  Proof.
    intros l z rd items pre1 G R cs St J Hc t Ht.
    pose proof (j_read _ _ _ _ _ _ _ _ _ _ _ _ _ J) as Hr.
    assert (Hs : Forall sound_verdict (staken (slogs l))).
    { clear - Hr. induction Hr as [|v q vs qs H Hr IH]; constructor; [|exact IH]. destruct H; exact I. }
    destruct (completes_steps K o gs gr _ _ (zsteps_xsteps K relaxed o _ _ _ St) Hs) as [_ Hd].
    pose proof (j_started _ _ _ _ _ _ _ _ _ _ _ _ _ J) as Es.
    destruct (Hd t Ht) as (c & Et & [(Hreg & raw & Hin)|(Hi & vs0 & r & r' & vs1 & Ev)]).
    - assert (Hq : In (RqCommand c) rd).
      { clear - Hr Hin. induction Hr as [|v q vs qs H Hr IH]; [contradiction|].
        destruct Hin as [->|Hin]; [|right; auto]. inversion H; subst. now left. }
      assert (He : In c (map snd (enqueued (clogs l)))).
      { destruct Hc as (dn & E & [Hl _] & _).
        assert (Hx : In c (cmds (started (cur_of (z_a z)) (clogs l)))).
        { rewrite <- Es, cmds_app. apply in_or_app. left. now apply cmds_in. }
        rewrite started_cmds in Hx.
        - apply in_map_iff in Hx as (y & Ey & Hx). apply in_map_iff. exists y. split; auto.
          rewrite <- (firstn_skipn (length (terminals (clogs l)) + length (ClientInv.cur_cmd (cur_of (z_a z))))).
          apply in_or_app. left. exact Hx.
        - rewrite E, !app_length. lia. }
      apply in_map_iff in He as ([h c'] & E & He). cbn in E. subst c'.
      apply (In_nth_error (enqueued (clogs l))) in He. destruct He as (k & He). exists k, h, c. auto.
    - rewrite Ev in Hr. apply Forall2_app_inv_l in Hr as (rd0 & rd1 & _ & Hr & ->).
      inversion Hr as [|? q1 ? rd2 Hq1 Hr2]; subst. inversion Hr2 as [|? q2 ? rd3 Hq2 _]; subst.
      inversion Hq1; subst. inversion Hq2; subst.
      assert (Ef : exists n, started (cur_of (z_a z)) (clogs l) = flat_map (segment_requests (clogs l)) (seq 0 n)).
      { unfold started, resolved_requests. destruct (cur_of (z_a z)).
        - exists (S (length (terminals (clogs l)))). rewrite seq_S, flat_map_app. cbn. now rewrite app_nil_r.
        - exists (length (terminals (clogs l))). now rewrite app_nil_r. }
      destruct Ef as (n & Ef). rewrite Ef, <- app_assoc in Es. symmetry in Es. cbn in Es.
      destruct (blocks_adjacent _ _ _ _ _ (segment_block (clogs l)) Es) as (k & b' & _ & Hk).
      pose proof Hk as Hk'. unfold segment_requests in Hk'.
      destruct (nth_error (enqueued (clogs l)) k) as [[h c']|] eqn:En; [|discriminate].
      injection Hk' as -> _. exists k, h, c. split; [exact En|]. split; [reflexivity|].
      right. split; [exact Hi|]. eapply done_handle; eauto. rewrite Hk. right. now left.
  Qed.

  Lemma finished_app : forall l l1 t, finished l t -> finished (l ++ l1) t.
  Proof.
    intros l l1 t (k & h & c & H1 & H2 & H3). exists k, h, c. split; [|split; [exact H2|]].
    - rewrite ClientInv.enqueued_app, nth_error_app1; [exact H1|]. apply nth_error_Some. congruence.
    - destruct H3 as [H3|[H3 H4]]; [now left|right; split; auto].
      rewrite ClientInv.segment_app. destruct (Nat.ltb_spec k (length (terminals l))); [exact H4|].
      destruct (Nat.eqb_spec k (length (terminals l))).
      + rewrite ClientInv.exchange_app. apply in_or_app. now left.
      + rewrite ClientInv.segment_ge in H4 by lia. contradiction.
  Qed.

  (** A client that waits has told its application about the commands that were completed. *)
  Lemma completed_concluded : forall l a x toS rd items pre1 G R cs t,
    jinv l a x toS rd items pre1 G R cs -> ClientInv.conv_inv K a (clogs l) ->
    NoDup (map (fun y => ctag (snd y)) (enqueued (clogs l))) ->
    a_greeted a = true -> asettled K a ->
    In t (completed (slogs l)) -> finished (clogs l) t -> concluded (clogs l) t.
  Proof.
    intros l a x toS rd items pre1 G R cs t J Hc Nd Hg Hs Ht (k & h & c & Hk & Et & Hf).
    pose proof (j_tag _ _ _ _ _ _ _ _ _ _ _ _ _ J) as J6.
    pose proof (j_done _ _ _ _ _ _ _ _ _ _ _ _ _ J t Ht) as Hrd.
    pose proof (j_started _ _ _ _ _ _ _ _ _ _ _ _ _ J) as Es.
    pose proof Hc as (dn & E & [Hl _] & _).
    assert (Len : length (terminals (clogs l)) + length (ClientInv.cur_cmd (cur_of a)) <= length (enqueued (clogs l))).
    { rewrite E, !app_length. lia. }
    assert (Hlt : k < length (terminals (clogs l)) + length (ClientInv.cur_cmd (cur_of a))).
    { assert (Hx : In t (map ctag (cmds (started (cur_of a) (clogs l))))).
      { rewrite <- Es, cmds_app, map_app. apply in_or_app. now left. }
      rewrite (started_cmds _ _ Len), map_map in Hx. apply in_map_iff in Hx as (y & Ey & Hy).
      apply In_nth_error in Hy as (j & Hj).
      assert (Hjl : j < length (terminals (clogs l)) + length (ClientInv.cur_cmd (cur_of a))).
      { assert (Hj' : j < length (firstn (length (terminals (clogs l)) + length (ClientInv.cur_cmd (cur_of a))) (enqueued (clogs l)))).
        { apply nth_error_Some. congruence. }
        rewrite firstn_length in Hj'. lia. }
      enough (j = k) as -> by exact Hjl.
      rewrite <- (firstn_skipn (length (terminals (clogs l)) + length (ClientInv.cur_cmd (cur_of a))) (enqueued (clogs l))) in Nd.
      eapply (proj1 (NoDup_nth_error _) Nd).
      - rewrite firstn_skipn, map_length. lia.
      - rewrite firstn_skipn. erewrite !map_nth_error; [..|exact Hk|].
        + cbn. rewrite Et, <- Ey. reflexivity.
        + rewrite <- (firstn_skipn (length (terminals (clogs l)) + length (ClientInv.cur_cmd (cur_of a))) (enqueued (clogs l))).
          rewrite nth_error_app1; [exact Hj|]. apply nth_error_Some. congruence. }
    destruct (Nat.lt_ge_cases k (length (terminals (clogs l)))) as [Hk1|Hk1].
    - destruct (ClientProps.conv_done K a (clogs l) k h c Hc Hk Hk1) as (e & He & Hv & _).
      exists k, h, c, e. split; [exact Hk|]. split; [exact Et|]. split; [exact He|].
      destruct Hv as [Hr|pre d post s Hr He1|ca line xs ds lines tl s E1 E2 Hr E3 Htl E4
        |line tl s E1 E2 Htl E4|line q dn0 E1 E2 E3]; eauto.
      + exfalso. subst c. destruct Hf as [[p Hf]|[Hf _]]; discriminate.
      + exfalso. destruct Hf as [[p Hf]|[_ Hf]]; [congruence|].
        destruct Hf as [Hf|Hf]; [discriminate|].
        destruct Htl as [->|(q & ->)]; cbn in Hf; intuition discriminate.
    - exfalso. destruct (cur_of a) as [m|] eqn:Em; [|cbn in Hlt; lia].
      assert (Hm : ClientInv.cur_cmd (Some m) = [(h, c)]).
      { assert (L1 : length (ClientInv.cur_cmd (Some m)) = 1) by (destruct m; reflexivity).
        rewrite E, nth_error_app2, nth_error_app1 in Hk by lia.
        destruct (ClientInv.cur_cmd (Some m)) as [|y [|]]; try discriminate L1.
        replace (k - length dn) with 0 in Hk by (cbn in Hlt; lia). now injection Hk as ->. }
      apply (J6 m eq_refl); [eapply settled_unfinished; eauto|].
      rewrite (cur_cmd_tag m h c Hm), Et. exact Ht.
  Qed.

  Lemma concluded_app : forall l l1 t, concluded l t -> concluded (l ++ l1) t.
  Proof.
    intros l l1 t (k & h & c & e & H1 & H2 & H3 & H4). exists k, h, c, e.
    rewrite ClientInv.enqueued_app, ClientInv.terminals_app.
    rewrite !nth_error_app1 by (apply nth_error_Some; congruence). auto.
  Qed.

  Lemma events_one : forall pre e0 l1 e l2, (forall e1, ~ In (ClNext (IEvent e1)) pre) ->
    pre ++ [ClNext (IEvent e0)] = l1 ++ ClNext (IEvent e) :: l2 -> l1 = pre /\ e = e0.
  Proof.
    induction pre as [|p pre IH]; intros e0 l1 e l2 Hn E.
    - destruct l1 as [|? [|]]; try discriminate. cbn in E. now injection E as -> _.
    - destruct l1 as [|p' l1].
      + cbn in E. injection E as -> _. exfalso. apply (Hn e). now left.
      + cbn in E. injection E as -> E. apply IH in E as [-> ->]; auto.
        intros e1 H. apply (Hn e1). now right.
  Qed.

  Lemma astep_expected : forall l a x toS rd items pre1 G R cs l1 a' z',
    jinv l a x toS rd items pre1 G R cs -> side K o gr l a x ->
    ServerInv.sinv K o gr (slogs l) x -> respinv K o gr (l ++ map YC l1) z' ->
    due (clogs l) = due_cur (cur_of a) -> idles (clogs l) = idles_cur (cur_of a) ->
    (forall t, In t (completed (slogs l)) -> finished (clogs l) t) ->
    NoDup (map (fun y => ctag (snd y)) (enqueued (clogs l))) ->
    astep K relaxed a l1 a' ->
    forall l1a e l1b, l1 = l1a ++ ClNext (IEvent e) :: l1b -> expected_event (clogs l ++ l1a) e.
  Proof.
    intros l a x toS rd items pre1 G R cs l1 a' z' J Sd Si Hresp Hdue Hidles Hfin Nd Ha l1a e0 l1b El.
    pose proof J as [J1 J2 J3 J4 J5 J6 J7 J8 J9].
    assert (One : forall e1, [ClNext (IEvent e1)] = l1a ++ ClNext (IEvent e0) :: l1b -> e0 = e1).
    { intros e1 E. apply (events_one []) in E as [_ ->]; auto. }
    assert (No : forall e1, (forall e2, e1 <> ClNext (IEvent e2)) ->
      [e1] = l1a ++ ClNext (IEvent e0) :: l1b -> False).
    { intros e1 Hn E. destruct l1a as [|? [|]]; try discriminate. cbn in E. injection E as ->. now apply (Hn e0). }
    assert (Two : forall raw v e1,
      [ClRx (Crx raw v); ClNext (IEvent e1)] = l1a ++ ClNext (IEvent e0) :: l1b ->
      l1a = [ClRx (Crx raw v)] /\ e0 = e1).
    { intros raw v e1 E. apply (events_one [ClRx (Crx raw v)]) in E; auto.
      intros e2 [H|[]]; discriminate. }
    destruct Ha as [a cmd g0 h Hg|a y|a d s r H0|a s r H0|a s H0 H1|a s e H0 H1|a s b H0 H1
      |a H0 H1|a raw rest ls g0 H0 H1 H2|a raw rest ls q s H0 H1 H2 H3 H4
      |a raw rest ls m c' e H0 H1 H2 H3 H4|a raw rest v e H0 H1 H2];
      try (exfalso; eapply No; [|exact El]; intros e2; discriminate).
    - destruct l1a; discriminate.
    - apply One in El as ->. destruct e; exact I.
    - apply Two in El as [-> ->]. exact I.
    - (* response *)
      apply Two in El as [-> ->].
      destruct (take_head K o gr _ _ _ _ (Crx raw (CvResponse m)) Hresp Si eq_refl) as (m1 & F & F1 & F2 & F3 & F4).
      cbn in F3. destruct m1 as [g|hh r]; [discriminate|]. injection F3 as ->.
      pose proof (ClientInv.settled_waiting K _ (H1 H0)) as Hw. unfold ClientInv.waiting in Hw.
      assert (Eu : due (clogs l ++ [ClRx (Crx raw (CvResponse m))]) = due_cur (cur_of a)).
      { rewrite due_app. cbn. exact Hdue. }
      assert (Ei : idles (clogs l ++ [ClRx (Crx raw (CvResponse m))]) = idles_cur (cur_of a)).
      { rewrite idles_app. cbn. exact Hidles. }
      rewrite F1 in J5. inversion J5 as [|? ? ? Hpl Hc|? ? cs0 Hc]; subst.
      + destruct m as [st|dd|q]; [| |contradiction].
        * cbn in H4. destruct (cs_maybe_terminate (a_send a) st) as [s t] eqn:Et.
          assert (Ete : s = a_send a /\ t = None).
          { unfold cs_maybe_terminate in Et.
            destruct (cur_of a) as [m0|] eqn:Em; [|injection Et as <- <-; auto].
            assert (Hu : unfinished m0) by (eapply settled_unfinished; eauto).
            pose proof (J6 _ eq_refl Hu) as Hnin.
            destruct st as [t0 b|b|cc tt]; [|destruct m0; injection Et as <- <-; auto..].
            cbn in Hpl.
            assert (Hneq : t0 <> cm_tag m0) by (intros ->; contradiction).
            apply bytes_eqb_neq in Hneq.
            destruct m0 as [h c fs act|h ca act|h t1 act]; cbn in Hneq; rewrite Hneq in Et;
              rewrite ?andb_false_r in Et; injection Et as <- <-; auto. }
          destruct Ete as [-> ->]. injection H4 as <- <-. cbn.
          destruct st as [t0 b|b|cc tt]; try exact I.
          pose proof (Hfin _ Hpl) as Hf. split; [now apply finished_app|]. apply concluded_app.
          eapply completed_concluded; eauto. apply (sd_conv _ _ _ _ _ _ Sd).
        * cbn in H4. injection H4 as <- <-. exact I.
      + destruct (cur_of a) as [m0|] eqn:Em; [|inversion J4].
        inversion J4 as
          [
          |
          |
          |h c fs act lit qq Hc0 Hl
          |h c fs act lit b Hc0 Hl Hb
          |
          |
          |
          |h ca act hh0 qq Ha Haw Hoo
          |
          |
          |
          |h ca act hh0 b Ha
          |
          |
          |h t act hh0 qq Ha Hoo
          |
          |
          |
          |h t act hh0 b Ha]; subst.
        * exfalso. destruct Hl as [-> | ->]; [contradiction|].
          cbn in H4. unfold cs_literal_continue in H4. rewrite Em in H4. discriminate.
        * cbn in H4. unfold cs_maybe_terminate in H4. rewrite Em, Hb, bytes_eqb_refl in H4. cbn in H4.
          injection H4 as <- <-. exact I.
        * cbn in H4. unfold cs_literal_continue in H4. rewrite Em in H4. cbn in H4.
          unfold cs_authenticate_continue in H4. rewrite Em in H4.
          destruct act; try contradiction; try (destruct Ha as [[|]|]; discriminate).
          injection H4 as <- <-. exact I.
        * cbn in H4. unfold cs_maybe_terminate in H4. rewrite Em, bytes_eqb_refl in H4.
          assert (Ed : due_cur (Some (CmAuthenticate h ca act)) = false).
          { destruct Ha as [[-> | ->] | ->]; reflexivity. }
          destruct (sb_kind b); injection H4 as <- <-; cbn; congruence.
        * cbn in H4. unfold cs_literal_continue in H4. rewrite Em in H4. cbn in H4.
          unfold cs_authenticate_continue in H4. rewrite Em in H4.
          unfold cs_idle_continue in H4. rewrite Em in H4.
          destruct act; try contradiction; try (destruct Ha as [|]; discriminate).
          injection H4 as <- <-. exact I.
        * cbn in H4. unfold cs_maybe_terminate in H4. rewrite Em, bytes_eqb_refl in H4.
          assert (Ed : idles_cur (Some (CmIdle h t act)) = false).
          { destruct Ha as [-> | ->]; reflexivity. }
          injection H4 as <- <-. cbn. congruence.
    - exfalso. destruct l1a as [|? [|? [|]]]; discriminate.
  Qed.

  Lemma xstep_asked : forall l a x toS rd items pre1 G R cs l1 x',
    jinv l a x toS rd items pre1 G R cs -> side K o gr l a x ->
    (exists rd' items' pre1' G' R' cs',
       jinv (l ++ map YS l1) a x' toS rd' items' pre1' G' R' cs') -> orderly l ->
    xstep K o x l1 x' ->
    forall l1a d l1b, l1 = l1a ++ SlNext (IEvent (SeAuthenticateDataReceived d)) :: l1b ->
    asked (slogs l ++ l1a) = true.
  Proof.
    intros l a x toS rd items pre1 G R cs l1 x' J Sd J' Ho Hx l1a d l1b El.
    destruct Hx as [x p x' e Hx|x m q E1 E2|x m e E1 E2|x s1 E1 E2
      |x s1 w ln rest i n E1 E2 E3 E4 E5 E6 E7 E8|x s1 raw rest v E1 E2 E3 E4
      |x s1 raw rest E1 E2 E3 E4 E5].
    all: try (destruct l1a as [|? [|]]; discriminate).
    - exfalso. destruct l1a as [|? [|]]; try discriminate. cbn in El. injection El as ->.
      destruct p as [r|y|q|t|q|t|]; cbn in Hx; try discriminate;
        destruct (x_mode x); discriminate.
    - exfalso. destruct l1a as [|? [|]]; try discriminate. cbn in El. injection El as ->.
      destruct m as [g|[h|] r]; cbn in E2; discriminate.
    - destruct l1a as [|? [|? [|]]]; try discriminate. cbn in El. injection El as <- El _.
      assert (Ev : v = SvAuthData d).
      { destruct v as [c|d0| |i| | |]; cbn in El; try discriminate; [|congruence].
        unfold command_event in El. destruct (cbody c); discriminate. }
      subst v. rewrite asked_app. cbn.
      unfold sframe in E3. destruct (x_mode x) eqn:Em; try contradiction; [|destruct E3; contradiction].
      pose proof (j_stage _ _ _ _ _ _ _ _ _ _ _ _ _ J) as St. rewrite Em in St.
      pose proof (j_read _ _ _ _ _ _ _ _ _ _ _ _ _ J) as Hr.
      destruct J' as (rd' & items' & pre1' & G' & R' & cs' & J').
      pose proof (j_read _ _ _ _ _ _ _ _ _ _ _ _ _ J') as Hr'.
      pose proof (j_started _ _ _ _ _ _ _ _ _ _ _ _ _ J) as Es.
      pose proof (j_started _ _ _ _ _ _ _ _ _ _ _ _ _ J') as Es'.
      rewrite clogs_server, <- Es in Es'.
      rewrite slogs_server, ServerInv.staken_app in Hr'. cbn in Hr'.
      apply Forall2_app_inv_l in Hr' as (rd1 & rd2 & Hr1 & Hr2 & ->).
      inversion Hr2 as [|? q ? rd3 Hq Hr3]; subst. inversion Hr3; subst.
      pose proof (Forall2_len Hr) as L1. pose proof (Forall2_len Hr1) as L2.
      rewrite <- app_assoc in Es'. cbn in Es'.
      assert (E : items = q :: items').
      { symmetry in Es'. apply app_inv_length in Es' as [_ Es']; [auto|congruence]. }
      subst items. inversion St; subst; auto; exfalso.
      all: try (match goal with H : opening _ _ _ |- _ => destruct H as (? & _ & H) end).
      all: match goal with H : free _ _ |- _ => apply free_modes in H as [H|H]; discriminate end.
    - destruct l1a as [|? [|? [|]]]; discriminate.
  Qed.

  Lemma views : forall l z, zsteps (znew gc gs gr) l z -> orderly l ->
    all_expected (clogs l) /\ data_asked (slogs l).
  Proof.
    intros l z H. remember (znew gc gs gr) as z0 eqn:E0.
    induction H as [z|z l z1 l1 z2 H IH H1]; intro Ho; subst z.
    { split; intros l1 e l2 E; destruct l1; discriminate. }
    pose proof (orderly_app _ _ _ _ _ _ Ho) as Ho0.
    destruct (IH eq_refl Ho0) as [V1 V2]. clear IH.
    destruct (jinv_steps K relaxed o gc gs gr _ _ H Ho0) as (rd & items & pre1 & G & R & cs & J).
    pose proof (side_steps K relaxed o gc gs gr _ _ H (or_msgs _ _ _ _ _ Ho0)) as Sd.
    pose proof (ServerInv.sinv_steps K o gs gr _ _ (zsteps_xsteps K relaxed o _ _ _ H)) as I1.
    assert (H2 : zsteps (znew gc gs gr) (l ++ l1) z2) by (econstructor; eauto).
    pose proof (respinv_steps K relaxed o gc gs gr _ _ H2 (or_msgs _ _ _ _ _ Ho)) as Rp.
    pose proof (read_finished _ _ _ _ _ _ _ _ H J (sd_conv _ _ _ _ _ _ Sd)) as Hfin.
    destruct (views_steps K relaxed _ _ _ (zsteps_asteps K relaxed o _ _ _ H)) as [Hd Hi].
    assert (SplitC : forall lc, (forall la e lb, lc = la ++ ClNext (IEvent e) :: lb ->
        expected_event (clogs l ++ la) e) -> all_expected (clogs l ++ lc)).
    { intros lc Hc la e lb E. apply app_split in E as [(lb' & E)|(la' & -> & E)]; [eapply V1|eapply Hc]; eauto. }
    assert (SplitS : forall lc, (forall la d lb, lc = la ++ SlNext (IEvent (SeAuthenticateDataReceived d)) :: lb ->
        asked (slogs l ++ la) = true) -> data_asked (slogs l ++ lc)).
    { intros lc Hc la d lb E. apply app_split in E as [(lb' & E)|(la' & -> & E)]; [eapply V2|eapply Hc]; eauto. }
    destruct H1 as [a a' x ts tc lc Ha Hin|a x x' ts tc ls Hx Hin|a x ts tc d|a x ts tc d];
      cbn [z_a z_x z_toC z_toS] in *.
    - rewrite clogs_client, slogs_client. split; [|exact V2].
      apply SplitC. intros la e lb E. eapply astep_expected; eauto. apply (or_tags _ _ _ _ _ Ho0).
    - rewrite clogs_server, slogs_server. split; [exact V1|].
      apply SplitS. intros la d lb E. eapply xstep_asked; eauto.
      eapply jinv_xstep; eauto.
    - change [YS (SlInput d)] with (map YS [SlInput d]). rewrite clogs_server, slogs_server.
      split; [exact V1|]. apply SplitS. intros [|? [|]] d0 lb E; discriminate.
    - change [YC (ClInput d)] with (map YC [ClInput d]). rewrite clogs_client, slogs_client.
      split; [|exact V2]. apply SplitC. intros [|? [|]] d0 lb E; discriminate.
  Qed.
End Joint.

(** Runs of a client connected to a server. *)
Lemma system_views : forall K relaxed gc gs o gr acts y l,
  yran K relaxed gc gs o gr acts y l -> orderly K relaxed o gr l ->
  all_expected (clogs l) /\ data_asked (slogs l).
Proof.
  intros K relaxed gc gs o gr acts y l Run Ho.
  destruct (sys_run_new K relaxed o gc gs gr _ _ _ Run) as (z & St & _).
  eapply views; eauto.
Qed.
