(** What the applications see determines whether a conversation is orderly, what was
    requested, and what was reported. *)
From Coq Require Import List NArith Bool PeanoNat Lia.
From Verif Require Import Base Types Codec Handle Receive ServerSend ClientSend Client Server
  SpecFraming SpecClient SpecServer ReceiveProofs ClientAbs ServerAbs System SystemAbs SpecSystem
  SpecSystemLive SystemLog SystemResp SystemServer SystemThms SystemSettle
  Stream StreamMachine SpecStream StreamProofs StreamEvents StreamState Net SpecNet NetProofs.
From Verif Require ClientInv ServerInv ServerProps.
Import ListNotations.

(** ** Entries that the applications see *)

Definition c_shown (e : clog) : bool :=
  match e with
  | ClEnqueue _ _ | ClSetAuth _ _ | ClSetDone _ => true
  | ClNext (IEvent _) | ClNext (IError _) => true
  | _ => false
  end.
Definition s_shown (e : slog) : bool :=
  match e with
  | SlEnqueue _ _ | SlAuthContinue _ _ | SlAuthFinish _ _ | SlIdleAccept _ _ | SlIdleReject _ _ => true
  | SlNext (IEvent _) | SlNext (IError _) => true
  | _ => false
  end.
Notation fc := (filter c_shown).
Notation fs := (filter s_shown).

Ltac by_entry l IH :=
  induction l as [|e l IH]; [reflexivity|];
  destruct e as [| | | | |[]|]; cbn; rewrite ?IH; try reflexivity.

Lemma shown_enqueued : forall l, enqueued (fc l) = enqueued l.
Proof. intro l. by_entry l IH. Qed.
Lemma shown_events : forall l, events (fc l) = events l.
Proof. intro l. by_entry l IH. Qed.
Lemma shown_terminals : forall l, terminals (fc l) = terminals l.
Proof. intro l. unfold terminals. now rewrite shown_events. Qed.
Lemma shown_exchange : forall l, exchange (fc l) = exchange l.
Proof.
  intro l. induction l as [|e l IH]; [reflexivity|].
  destruct e as [| |? []|[]| |[]|]; cbn; rewrite ?IH; reflexivity.
Qed.
Lemma shown_segment : forall l k, segment k (fc l) = fc (segment k l).
Proof.
  induction l as [|e l IH]; intro k; [reflexivity|]. cbn [filter segment].
  destruct (c_shown e) eqn:S.
  - cbn [segment]. destruct (ends_segment e); destruct k; cbn [filter]; rewrite ?S, ?IH; reflexivity.
  - assert (ends_segment e = false) as -> by (destruct e as [| | | | |[]|]; try discriminate; reflexivity).
    destruct k; cbn [filter]; now rewrite ?S, ?IH.
Qed.
Lemma shown_requests : forall l, requests (fc l) = requests l.
Proof.
  intro l. unfold requests. rewrite shown_terminals. apply flat_map_ext. intro k.
  unfold segment_requests. now rewrite shown_enqueued, shown_segment, shown_exchange.
Qed.
Lemma shown_oldest : forall l, oldest (fc l) = oldest l.
Proof. intro l. unfold oldest. now rewrite shown_enqueued, shown_terminals. Qed.

Lemma shown_fold : forall A (f : A -> slog -> A), (forall a e, s_shown e = false -> f a e = a) ->
  forall l a, fold_left f (fs l) a = fold_left f l a.
Proof.
  intros A f F l. induction l as [|e l IH]; intro a; [reflexivity|]. cbn.
  destruct (s_shown e) eqn:S; cbn; [apply IH|]. now rewrite IH, (F _ _ S).
Qed.
Lemma open_hidden : forall a e, s_shown e = false -> open_step a e = a.
Proof. intros a e S. destruct e as [| | | | | | |[]|]; try discriminate; reflexivity. Qed.
Lemma shown_open : forall l, open_tag (fs l) = open_tag l.
Proof. intro l. apply shown_fold, open_hidden. Qed.
Lemma shown_asked : forall l, asked (fs l) = asked l.
Proof.
  intro l. apply shown_fold. intros a e S.
  destruct e as [| | | | | | |[]|]; try discriminate; reflexivity.
Qed.
Lemma shown_completed : forall l, completed (fs l) = completed l.
Proof.
  intro l. unfold completed. generalize (@None tag). induction l as [|e l IH]; intro t; [reflexivity|].
  cbn [filter]. destruct (s_shown e) eqn:S; cbn [completed_from]; rewrite IH; [reflexivity|].
  rewrite (open_hidden _ _ S). destruct e as [| | | | | | |[]|]; try discriminate; reflexivity.
Qed.
Lemma shown_polite : forall l, polite (fs l) -> polite l.
Proof.
  intros l P l1 e l2 ->. destruct (s_shown e) eqn:S.
  - rewrite filter_app in P. cbn [filter] in P. rewrite S in P. specialize (P _ _ _ eq_refl).
    unfold polite_entry in *. rewrite shown_completed, shown_asked, shown_open in P. exact P.
  - destruct e as [| | | | | | |[]|]; try discriminate; exact I.
Qed.
Lemma shown_sreports : forall l, sreports (fs l) = sreports l.
Proof.
  intro l. unfold sreports. induction l as [|e l IH]; [reflexivity|].
  destruct e as [| | | | | | |[]|]; cbn; rewrite ?IH; try reflexivity;
    (destruct (is_report _) || idtac); now rewrite ?IH.
Qed.
Lemma shown_sevents : forall l, sevents (fs l) = sevents l.
Proof.
  intro l. induction l as [|e l IH]; [reflexivity|].
  destruct e as [| | | | | | |[]|]; cbn; now rewrite ?IH.
Qed.
Lemma shown_accepted : forall l, flat_map accepted (fs l) = flat_map accepted l.
Proof.
  intro l. induction l as [|e l IH]; [reflexivity|].
  destruct e as [| | | | | | |[]|]; cbn; now rewrite ?IH.
Qed.

(** ** The part of a log that the applications see *)

Definition y_shown (e : ylog) : bool := match e with YC e => c_shown e | YS e => s_shown e end.
Notation fy := (filter y_shown).

Lemma shown_clogs : forall l, clogs (fy l) = fc (clogs l).
Proof. induction l as [|[e|e] l IH]; cbn; auto; [destruct (c_shown e)|destruct (s_shown e)]; cbn; congruence. Qed.
Lemma shown_slogs : forall l, slogs (fy l) = fs (slogs l).
Proof. induction l as [|[e|e] l IH]; cbn; auto; [destruct (c_shown e)|destruct (s_shown e)]; cbn; congruence. Qed.

(** Only the two parts matter, not their interleaving. *)
Lemma orderly_parts : forall K relaxed o gr l l', clogs l = clogs l' -> slogs l = slogs l' ->
  orderly K relaxed o gr l -> orderly K relaxed o gr l'.
Proof. intros K relaxed o gr l l' E1 E2 [H1 H2 H3 H4 H5 H6 H7]. rewrite E1, E2 in *. now constructor. Qed.
Lemma own_parts : forall K relaxed o l l', enqueued (clogs l) = enqueued (clogs l') ->
  own_roundtrips K relaxed o l -> own_roundtrips K relaxed o l'.
Proof. intros K relaxed o l l' E [H1 H2]. split; [exact H1|]. now rewrite <- E. Qed.

Lemma shown_in_c : forall e l, c_shown e = true -> In e l -> In e (fc l).
Proof. intros. now apply filter_In. Qed.

Section Lift.
  Variable K : Codecs.
  Variable relaxed : bool.
  Variable o : soptions.
  Variable gc gs : hgen.
  Variable gr : greeting.
  Notation orderly := (orderly K relaxed o gr).
  Notation own_roundtrips := (own_roundtrips K relaxed o).
  Notation zsteps := (zsteps K relaxed o).

  (** If the messages of the server round-trip, too, then the whole log is orderly. *)
  Lemma orderly_shown : forall l, orderly (fy l) ->
    (forall m, In m (scheduled o gr (slogs l)) -> msg_roundtrips K relaxed m) -> orderly l.
  Proof.
    intros l [H1 H2 H3 H4 H5 H6 H7] Hm. rewrite shown_clogs in *. rewrite shown_slogs in *.
    rewrite shown_enqueued in *. constructor; auto.
    - intros d h Hin. apply (H3 d h). now apply shown_in_c.
    - intros h Hin. apply (H4 h). now apply shown_in_c.
    - now apply shown_polite.
  Qed.

  Lemma orderly_lift : forall l z, zsteps (znew gc gs gr) l z ->
    orderly (fy l) -> own_roundtrips (fy l) -> orderly l.
  Proof.
    intros l z H. remember (znew gc gs gr) as z0 eqn:E0.
    induction H as [z|z l z1 l1 z2 H IH H1]; intros Ho Own; subst z.
    { exact Ho. }
    assert (Hf : fy (l ++ l1) = fy l ++ fy l1) by apply filter_app.
    assert (Ho1 : orderly (fy l)) by (rewrite Hf in Ho; eapply orderly_app; eauto).
    assert (Own1 : own_roundtrips (fy l)).
    { destruct Own as [O1 O2]. split; [exact O1|]. intros h c Hin. apply (O2 h c).
      rewrite Hf, clogs_app, ClientInv.enqueued_app. apply in_or_app. now left. }
    specialize (IH eq_refl Ho1 Own1). apply orderly_shown; [exact Ho|].
    intros m Hin. rewrite slogs_app in Hin. unfold scheduled in Hin.
    rewrite flat_map_app in Hin. destruct Hin as [<-|Hin]; [apply (or_msgs _ _ _ _ _ IH); now left|].
    apply in_app_or in Hin as [Hin|Hm]; [apply (or_msgs _ _ _ _ _ IH); now right|].
    pose proof (side_steps K relaxed o gc gs gr _ _ H (or_msgs _ _ _ _ _ IH)) as Sd.
    destruct (jinv_steps K relaxed o gc gs gr _ _ H IH) as (rd & items & pre1 & G & R & cs & J).
    destruct H1 as [a a' x ts tc lc _ _|a x x' ts tc ls Hx _|a x ts tc d|a x ts tc d];
      cbn [z_a z_x z_toS] in *; try (rewrite ?slogs_YC in Hm; cbn in Hm; contradiction).
    rewrite slogs_YS in Hm.
    assert (Hs : slogs (fy (l ++ map YS ls)) = fs (slogs l) ++ fs ls).
    { now rewrite shown_slogs, slogs_app, slogs_YS, filter_app. }
    destruct Own1 as [O1 O2]. rewrite shown_clogs, shown_enqueued in O2.
    destruct Hx as [x p x' e Hx| | | |x s1 w ln rest i n Hq Hmo Hr Hl Hz Hok Hd
      |x s1 raw rest v E1 E2 E3 E4|]; cbn in Hm; try contradiction.
    - rewrite app_nil_r in Hm. apply (or_msgs _ _ _ _ _ Ho). right. rewrite Hs, flat_map_app.
      apply in_or_app. right. destruct (ServerProps.xcall_label _ _ _ _ Hx) as [L1 L2].
      destruct e; cbn in Hm |- *; try contradiction; try (rewrite app_nil_r; exact Hm); [exact Hm|].
      now exfalso; eapply L2.
    - rewrite app_nil_r in Hm. unfold when_sync in Hm. destruct (cl_mode i); [|contradiction].
      destruct Hm as [<-|[]]. exact O1.
    - rewrite app_nil_r in Hm. destruct v as [| | |i| | |]; try contradiction.
      unfold when_sync in Hm. destruct (cl_mode i) eqn:Em; [|contradiction].
      destruct Hm as [<-|[]].
      destruct (jinv_msg K relaxed o gr _ _ _ _ _ _ _ _ _ _ raw rest (SvLiteralTooLong i)
        (x_start x (ss_push s1 (pushed_by o (SvLiteralTooLong i)))
           (mode_after (x_mode x) (SvLiteralTooLong i)) rest) J Sd IH E2 E3
        eq_refl eq_refl eq_refl eq_refl) as (rd' & items' & pre1' & G' & R' & cs' & J').
      pose proof (j_read _ _ _ _ _ _ _ _ _ _ _ _ _ J') as F.
      pose proof (j_started _ _ _ _ _ _ _ _ _ _ _ _ _ J') as St.
      rewrite slogs_server, ServerInv.staken_app in F. cbn in F.
      apply Forall2_app_inv_l in F as (rd1 & rd2 & _ & F & ->).
      inversion F as [|? q ? ? F1]; subst.
      inversion F1 as [|c pre d post Ee Hf1 Hd| |]; subst. cbn in Em |- *.
      rewrite clogs_server in St.
      assert (Hin : In (RqCommand c) (started (cs_current (a_send a)) (clogs l))).
      { rewrite <- St. apply in_or_app. left. apply in_or_app. right. now left. }
      destruct (started_enqueued _ _ _ Hin) as [h Hh]. exact (O2 h c Hh).
  Qed.
End Lift.

(** ** The log of the streams *)

Section View.
Context {K : Codecs}.
Notation CM := (client_machine K).
Notation SM := (server_machine K).

Lemma clogs_app_log : forall L : list (nlog CM SM), clogs (app_log L) = flat_map client_app (lefts L).
Proof.
  induction L as [|[e|e] L IH]; [reflexivity| |]; unfold app_log in *; cbn [flat_map app_entry lefts];
    rewrite clogs_app, IH; [now rewrite clogs_YC|]. now rewrite clogs_YS.
Qed.
Lemma slogs_app_log : forall L : list (nlog CM SM), slogs (app_log L) = flat_map server_app (rights L).
Proof.
  induction L as [|[e|e] L IH]; [reflexivity| |]; unfold app_log in *; cbn [flat_map app_entry rights];
    rewrite slogs_app, IH; [now rewrite slogs_YC|]. now rewrite slogs_YS.
Qed.

Definition c_ev (e : xlog CM) : list clog :=
  match e with
  | XCall _ r => [r]
  | XNext (MEvent e) => [ClNext (IEvent (e : cevent))]
  | XNext (MError e) => [ClNext (IError (e : cerror))]
  | _ => []
  end.
Definition s_ev (e : xlog SM) : list slog :=
  match e with
  | XCall _ r => [r]
  | XNext (MEvent e) => [SlNext (IEvent (e : sevent))]
  | XNext (MError e) => [SlNext (IError (e : serror))]
  | _ => []
  end.

Lemma client_app_shown : forall l lc, paired CM l ->
  flat_map client_view lc = call_entries l -> flat_map client_app l = fc lc.
Proof.
  intros l lc P E.
  assert (E1 : flat_map c_ev (flat_map (@client_view K) lc) = fc lc).
  { clear. induction lc as [|e lc IH]; [reflexivity|]. cbn [flat_map]. rewrite flat_map_app, IH.
    destruct e as [| | | | |[]|]; reflexivity. }
  assert (E2 : flat_map c_ev (call_entries l) = flat_map c_ev l).
  { clear. induction l as [|[] l IH]; cbn; now rewrite ?IH. }
  rewrite <- E1, E, E2. clear -P.
  induction P as [|e l P IH|e l P IH|e l [H1 H2] P IH]; cbn [flat_map]; rewrite ?IH; try reflexivity.
  f_equal. destruct e as [| |[]| | | | |[]| | |]; try discriminate; reflexivity.
Qed.
Lemma server_app_shown : forall l ls, paired SM l ->
  flat_map server_view ls = call_entries l -> flat_map server_app l = fs ls.
Proof.
  intros l ls P E.
  assert (E1 : flat_map s_ev (flat_map (@server_view K) ls) = fs ls).
  { clear. induction ls as [|e ls IH]; [reflexivity|]. cbn [flat_map]. rewrite flat_map_app, IH.
    destruct e as [| | | | | | |[]|]; reflexivity. }
  assert (E2 : flat_map s_ev (call_entries l) = flat_map s_ev l).
  { clear. induction l as [|[] l IH]; cbn; now rewrite ?IH. }
  rewrite <- E1, E, E2. clear -P.
  induction P as [|e l P IH|e l P IH|e l [H1 H2] P IH]; cbn [flat_map]; rewrite ?IH; try reflexivity.
  f_equal. destruct e as [| |[]| | | | |[]| | |]; try discriminate; reflexivity.
Qed.

Lemma given_app_log : forall l : list (xlog SM), flat_map accepted (flat_map server_app l) = given l.
Proof.
  induction l as [|e l IH]; [reflexivity|]. cbn [flat_map]. rewrite flat_map_app, IH.
  destruct e as [| | | | | | |[]| | |]; cbn; now rewrite ?app_nil_r.
Qed.
End View.
