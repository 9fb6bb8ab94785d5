(** Conversations reach a state in which everything was delivered, read and reported. *)
From Coq Require Import List NArith Bool PeanoNat Lia.
From Verif Require Import Base Types Codec Handle Receive ServerSend ClientSend Client Server
  SpecFraming SpecClient SpecServer ReceiveProofs ClientRecv ServerRecv ClientAbs ServerAbs
  ServerInv System SystemAbs SpecSystem SpecSystemLive SystemLive SystemLog
  SystemResp SystemServer SystemThms SystemGreet.
From Verif Require ClientInv ServerProps.
Import ListNotations.

(** Entries that the actions without applications write. *)
Definition auto_entry (e : ylog) : Prop :=
  match e with
  | YC (ClNext _) | YC (ClRx _) | YC (ClInput _) => True
  | YS (SlNext _) | YS (SlRx _) | YS (SlInput _) => True
  | _ => False
  end.

Lemma auto_step : forall K y a y' l, auto a -> sys_step K y a = (Some y', l) -> Forall auto_entry l.
Proof.
  intros K y a y' l Ha H. destruct a as [p|p|n|n].
  - destruct p; try contradiction. unfold sys_step in H. cbn [is_cinput client_step] in H.
    destruct (client_next K (y_client y)) as [[c g] r].
    destruct (c_is_panic r); [discriminate|]. injection H as _ <-.
    apply Forall_map, Forall_app. split; [|repeat constructor].
    apply Forall_map. apply Forall_forall. intros x _. exact I.
  - destruct p; try contradiction. unfold sys_step in H. cbn [is_sinput server_step] in H.
    destruct (server_next K (y_server y)) as [[c g] r].
    destruct (s_is_panic r); [discriminate|]. injection H as _ <-.
    apply Forall_map, Forall_app. split; [|repeat constructor].
    apply Forall_map. apply Forall_forall. intros x _. exact I.
  - cbn in H. destruct (server_enqueue_input _ _); [|discriminate]. injection H as _ <-.
    repeat constructor.
  - cbn in H. destruct (client_enqueue_input _ _); [|discriminate]. injection H as _ <-.
    repeat constructor.
Qed.

Lemma auto_run : forall K acts y y' l, Forall auto acts -> sys_run K y acts = (Some y', l) ->
  Forall auto_entry l.
Proof.
  intros K. induction acts as [|a acts IH]; intros y y' l Ha H; cbn -[sys_step] in H.
  - injection H as _ <-. constructor.
  - destruct (sys_step K y a) as [[y1|] l1] eqn:E; [|discriminate].
    destruct (sys_run K y1 acts) as [r l2] eqn:E2. injection H as -> <-.
    apply Forall_app. split; [exact (auto_step _ _ _ _ _ (Forall_inv Ha) E)|].
    exact (IH _ _ _ (Forall_inv_tail Ha) E2).
Qed.

Lemma auto_clogs : forall l e, Forall auto_entry l -> In e (clogs l) -> auto_entry (YC e).
Proof.
  induction l as [|x l IH]; intros e H Hin; [contradiction|].
  destruct x as [x|x]; cbn in Hin; [destruct Hin as [<-|Hin]|].
  - exact (Forall_inv H).
  - exact (IH _ (Forall_inv_tail H) Hin).
  - exact (IH _ (Forall_inv_tail H) Hin).
Qed.
Lemma auto_slogs : forall l e, Forall auto_entry l -> In e (slogs l) -> auto_entry (YS e).
Proof.
  induction l as [|x l IH]; intros e H Hin; [contradiction|].
  destruct x as [x|x]; cbn in Hin; [|destruct Hin as [<-|Hin]].
  - exact (IH _ (Forall_inv_tail H) Hin).
  - exact (Forall_inv H).
  - exact (IH _ (Forall_inv_tail H) Hin).
Qed.

Lemma auto_enqueued : forall l, Forall auto_entry l -> enqueued (clogs l) = [].
Proof.
  intros l H. assert (F : forall e, In e (clogs l) -> auto_entry (YC e)) by (intros; eapply auto_clogs; eauto).
  induction (clogs l) as [|e cl IH]; [reflexivity|].
  pose proof (F e (or_introl eq_refl)) as He.
  destruct e; try contradiction; cbn; apply IH; intros; apply F; now right.
Qed.

Section Settle.
  Variable K : Codecs.
  Variable relaxed : bool.
  Variable o : soptions.
  Notation orderly := (orderly K relaxed o).

  Lemma started_enqueued : forall cur l c, In (RqCommand c) (started cur l) ->
    exists h, In (h, c) (enqueued l).
  Proof.
    intros cur l c H.
    assert (S : forall k, In (RqCommand c) (segment_requests l k) -> exists h, In (h, c) (enqueued l)).
    { clear. intros k H. unfold segment_requests in H.
      destruct (nth_error (enqueued l) k) as [[h c']|] eqn:E; [|contradiction].
      destruct H as [H|H]; [injection H as ->; eauto using nth_error_In|]. exfalso.
      induction (exchange (segment k l)) as [|x xs IH]; [contradiction|].
      destruct x; cbn in H; auto; destruct H as [H|H]; auto; discriminate. }
    unfold started, resolved_requests in H. apply in_app_or in H as [H|H].
    - apply in_flat_map in H as (k & _ & H). eauto.
    - destruct cur; [eauto|contradiction].
  Qed.

  Lemma polite_auto : forall sl, (forall e, In e sl -> auto_entry (YS e)) -> forall ol,
    polite ol -> polite (ol ++ sl).
  Proof.
    intros sl. induction sl as [|x sl IH] using rev_ind; intros F ol P.
    { now rewrite app_nil_r. }
    intros l1 e l2 E. rewrite app_assoc in E.
    destruct (exists_last (l := e :: l2) ltac:(discriminate)) as (l3 & x' & E3).
    rewrite E3, app_assoc in E. apply app_inj_tail in E as [E <-].
    destruct l3 as [|e' l3].
    - injection E3 as -> ->. specialize (F x ltac:(apply in_or_app; right; now left)).
      destruct x; try contradiction; exact I.
    - cbn in E3. injection E3 as -> ->.
      eapply (IH (fun e H => F e (in_or_app _ _ _ (or_introl H))) ol P); exact E.
  Qed.

  Lemma orderly_more : forall gr l l', orderly gr l -> Forall auto_entry l' ->
    (forall m, In m (flat_map (scheduled_by o) (slogs l')) -> msg_roundtrips K relaxed m) ->
    orderly gr (l ++ l').
  Proof.
    intros gr l l' [H1 H2 H3 H4 H5 H6 H7] Ha Hm.
    constructor; rewrite ?clogs_app, ?slogs_app, ?ClientInv.enqueued_app, ?(auto_enqueued _ Ha), ?app_nil_r;
      auto.
    - intros m Hin. unfold scheduled in Hin. rewrite flat_map_app in Hin.
      destruct Hin as [<-|Hin]; [apply H1; now left|].
      apply in_app_or in Hin as [Hin|Hin]; [apply H1; now right|auto].
    - intros d h Hin. apply in_app_or in Hin as [Hin|Hin]; [eauto|].
      now apply (auto_clogs _ _ Ha) in Hin.
    - intros h Hin. apply in_app_or in Hin as [Hin|Hin]; [eauto|].
      now apply (auto_clogs _ _ Ha) in Hin.
    - apply polite_auto; [|exact H7]. intros e. now apply auto_slogs.
  Qed.

  Variable gc gs : hgen.
  Variable gr : greeting.

  Lemma orderly_step : forall l z l1 z1, zsteps K relaxed o (znew gc gs gr) l z -> orderly gr l ->
    own_roundtrips K relaxed o l -> zstep K relaxed o z l1 z1 -> Forall auto_entry l1 ->
    orderly gr (l ++ l1).
  Proof.
    intros l z l1 z1 Z O [Own1 Own2] S Ha. apply orderly_more; [exact O|exact Ha|].
    pose proof (side_steps K relaxed o gc gs gr _ _ Z (or_msgs _ _ _ _ _ O)) as Sd.
    destruct (jinv_steps K relaxed o gc gs gr _ _ Z O) as (rd & items & pre1 & G & R & cs & J).
    destruct S as [a a' x ts tc lc _ _|a x x' ts tc ls Hx _|a x ts tc d|a x ts tc d];
      cbn [z_a z_x z_toS] in *; intros m Hm; try (rewrite ?slogs_YC in Hm; cbn in Hm; contradiction).
    rewrite slogs_YS in Hm.
    destruct Hx as [x p x' e Hx| | | |x s1 w ln rest i n Hq Hmo Hr Hl Hz Hok Hd
      |x s1 raw rest v E1 E2 E3 E4|]; cbn in Hm; try contradiction.
    - exfalso. pose proof (Forall_inv Ha) as He.
      destruct (ServerProps.xcall_label _ _ _ _ Hx) as [L1 L2].
      destruct e; try contradiction; try (now eapply L1); try (now eapply L2).
    - rewrite app_nil_r in Hm. unfold when_sync in Hm. destruct (cl_mode i); [|contradiction].
      destruct Hm as [<-|[]]. exact Own1.
    - rewrite app_nil_r in Hm. destruct v as [| | |i| | |]; try contradiction.
      unfold when_sync in Hm. destruct (cl_mode i) eqn:Em; [|contradiction].
      destruct Hm as [<-|[]].
      destruct (jinv_msg K relaxed o gr _ _ _ _ _ _ _ _ _ _ raw rest (SvLiteralTooLong i)
        (x_start x (ss_push s1 (pushed_by o (SvLiteralTooLong i)))
           (mode_after (x_mode x) (SvLiteralTooLong i)) rest) J Sd O E2 E3
        eq_refl eq_refl eq_refl eq_refl) as (rd' & items' & pre1' & G' & R' & cs' & J').
      pose proof (j_read _ _ _ _ _ _ _ _ _ _ _ _ _ J') as F.
      pose proof (j_started _ _ _ _ _ _ _ _ _ _ _ _ _ J') as St.
      rewrite slogs_server, ServerInv.staken_app in F. cbn in F.
      apply Forall2_app_inv_l in F as (rd1 & rd2 & _ & F & ->).
      inversion F as [|? q ? ? F1]; subst.
      inversion F1 as [|c pre d post Ee Hf Hd| |]; subst. cbn in Em |- *.
      rewrite clogs_server in St.
      assert (Hin : In (RqCommand c) (started (cs_current (a_send a)) (clogs l))).
      { rewrite <- St. apply in_or_app. left. apply in_or_app. right. now left. }
      destruct (started_enqueued _ _ _ Hin) as [h Hh]. exact (Own2 h c Hh).
  Qed.

  Lemma orderly_auto : forall l z l' z', zsteps K relaxed o (znew gc gs gr) l z -> orderly gr l ->
    own_roundtrips K relaxed o l -> zsteps K relaxed o z l' z' -> Forall auto_entry l' ->
    orderly gr (l ++ l').
  Proof.
    intros l z l' z' Z O Own H. revert Z. induction H as [z|z l1 z1 l2 z2 H IH H1]; intros Z Ha.
    - now rewrite app_nil_r.
    - apply Forall_app in Ha as [Ha1 Ha2]. specialize (IH Z Ha1). rewrite app_assoc.
      eapply orderly_step; [eapply zsteps_trans; [exact Z|exact H]|exact IH| |exact H1|exact Ha2].
      destruct Own as [Own1 Own2]. split; [exact Own1|]. intros h c.
      rewrite clogs_app, ClientInv.enqueued_app, (auto_enqueued _ Ha1), app_nil_r. apply Own2.
  Qed.

  Hypothesis NT : no_trailing K relaxed.
  Hypothesis SL : single_lines K.
  Hypothesis ST : sno_trailing K o.

  Lemma completes : forall acts y l,
    yran K relaxed gc gs o gr acts y l -> orderly gr l -> own_roundtrips K relaxed o l ->
    exists acts' y' l', Forall auto acts' /\
      yran K relaxed gc gs o gr (acts ++ acts') y' (l ++ l') /\ waiting_twice K y' /\
      orderly gr (l ++ l') /\
      Forall2 (read_as K o) (staken (slogs (l ++ l'))) (requests (clogs (l ++ l'))) /\
      greetings (events (clogs (l ++ l'))) = [gr] /\
      reported_all (events (clogs (l ++ l'))) = visible (scheduled o gr (slogs (l ++ l'))) /\
      (forall h c, oldest (clogs (l ++ l')) = Some (h, c) -> ~ regular c).
  Proof.
    intros acts y l R O Own.
    destruct (settles K relaxed o NT SL ST (or_size _ _ _ _ _ O) _ _ _ _ _ _ R)
      as (acts' & y' & l' & Ha & R' & W).
    assert (O' : orderly gr (l ++ l')).
    { pose proof R' as R2. unfold yran in R, R2. rewrite (sys_run_app _ _ _ _ _ _ R) in R2.
      destruct (sys_run K y acts') as [r l2] eqn:E. injection R2 as -> E2.
      apply app_inv_head in E2. subst l2.
      destruct (sys_run_sim K relaxed o _ _ _ _ _ (yrel_new K relaxed o gc gs gr) R) as (z & Z & Rz).
      destruct (sys_run_sim K relaxed o _ _ _ _ _ Rz E) as (z' & Z' & _).
      exact (orderly_auto _ _ _ _ Z O Own Z' (auto_run _ _ _ _ _ Ha E)). }
    exists acts', y', l'. split; [exact Ha|]. split; [exact R'|]. split; [exact W|].
    split; [exact O'|]. split; [|split; [|split]].
    - exact (read_all K relaxed o gc gs gr _ _ _ R' O' (proj1 W)).
    - exact (greeted_waiting K relaxed o gc gs gr _ _ _ R' (or_msgs _ _ _ _ _ O') (proj1 W)).
    - exact (reported_waiting_twice K relaxed o gc gs gr _ _ _ R' O' W).
    - exact (oldest_not_regular K relaxed o gc gs gr _ _ _ R' O' (proj1 W)).
  Qed.
End Settle.
