(** What is left to do for a client, a server and their streams. *)
From Coq Require Import List NArith Bool PeanoNat Lia ZifyBool ZifyNat ZifyN.
From Verif Require Import Base Types Codec Handle Receive ServerSend ClientSend Client Server
  SpecFraming SpecClient SpecServer SystemLive
  Stream StreamMachine SpecStream StreamProofs SpecNet NetLive Proxy.
From Verif Require ClientAbs ServerAbs ClientDet ServerDet ServerLive ServerProps ServerRecv ReceiveProofs
  ClientLive.
Import ListNotations.

(** *** Client *)

Section Client.
Context (K : Codecs) (relaxed : bool).
Notation CM := (client_machine K).

(** What is left to send, and how much input is left. *)
Definition cpot (c : client) (p b : nat) : Prop :=
  exists a, ClientAbs.crel K relaxed c a /\ send_pot K (ClientAbs.a_send a) = p /\
    length (ClientAbs.a_buf a) = b.

Lemma cpot_new : forall g, cpot (client_new g relaxed) 0 0.
Proof. intro g. exists (ClientAbs.astate_new g). split; [apply ClientAbs.crel_new|]. auto. Qed.

Lemma cpot_give : forall c p b x c', cpot c p b -> m_enqueue CM c x = Some c' -> cpot c' p (b + length x).
Proof.
  intros c p b x c' (a & R & <- & <-) E.
  destruct (ClientDet.enqueue_input_sim K relaxed c a x R) as (c1 & E1 & R1).
  cbn in E. rewrite E1 in E. injection E as <-. exists (ClientDet.a_add a x). split; [exact R1|].
  split; [reflexivity|]. cbn. apply app_length.
Qed.

Lemma cpot_call : forall c p b o c' e, cpot c p b -> m_call CM c o = Some (c', e) ->
  exists p', cpot c' p' b.
Proof.
  intros c p b o c' e (a & R & _ & <-) E.
  assert (No : capp_op o <> CopNext) by (destruct o; discriminate).
  pose proof (ClientDet.client_call_sim K relaxed c a (capp_op o) R No) as S.
  cbn -[client_step] in E.
  destruct (ClientDet.acall K a (capp_op o)) as [[l a']|] eqn:A.
  - destruct S as (c1 & S & R1). rewrite S in E. injection E as <- <-.
    eexists. exists a'. split; [exact R1|]. split; [reflexivity|].
    destruct o; cbn -[cs_set_authenticate_data cs_set_idle_done] in A.
    + destruct (hgen_generate (ClientAbs.a_gen a)). now injection A as <- <-.
    + destruct (cs_set_authenticate_data K (ClientAbs.a_send a) d) as [[]|]; [|discriminate]. now injection A as <- <-.
    + destruct (cs_set_idle_done K (ClientAbs.a_send a)) as [[]|]; [|discriminate]. now injection A as <- <-.
  - rewrite S in E. discriminate.
Qed.

Lemma cpot_next : forall c p b c' r, cpot c p b -> m_next CM c = Some (c', r) ->
  exists p' b', cpot c' p' b' /\
    ((r = MNeedMore /\ p' <= p /\ b' <= b) \/ p' < p \/ (p' = p /\ b' < b /\ out_of CM r = [])).
Proof.
  intros c p b c' r (a & R & <- & <-) E. cbn -[client_next] in E.
  destruct (client_next K c) as [[c1 g] i] eqn:N.
  destruct (ClientAbs.client_next_sim K relaxed c a c1 g i R N) as (a' & A & _ & _ & R').
  destruct (mres_of i) as [i'|] eqn:Ei; [|discriminate]. injection E as <- <-.
  assert (Hp : i <> IPanic) by (intros ->; discriminate).
  exists (send_pot K (ClientAbs.a_send a')), (length (ClientAbs.a_buf a')).
  split; [exists a'; split; [auto|]; auto|].
  destruct (anext_pot K relaxed a g i a' A Hp) as [(_ & -> & L)|L].
  - left. cbn in Ei. injection Ei as <-. split; [reflexivity|]. destruct L as [L1 L2]. cbn in L1, L2. auto.
  - right. destruct L as [L|[L1 L2]]; [now left|]. cbn in L1, L2.
    destruct i as [| | |x| | |]; try discriminate; injection Ei as <-; cbn [out_of]; auto.
    apply anext_out in A. lia.
Qed.
End Client.

(** *** Server *)

Section Server.
Context (K : Codecs) (o : soptions).
Notation SM := (server_machine K).

(** How much input is left, and what is left to send. *)
Definition spot (s : server) (q w : nat) : Prop :=
  exists x, ServerAbs.srel K o s x /\ length (ServerAbs.x_buf x) + length (ServerAbs.x_rest x) = q /\
    ServerLive.swork_send (ServerAbs.x_send x) = w.

Lemma spot_new : forall g gr, spot (server_new g o gr) 0 2.
Proof. intros g gr. exists (ServerAbs.xnew g gr). split; [apply ServerAbs.srel_new|]. auto. Qed.

Lemma spot_give : forall s q w b s', spot s q w -> m_enqueue SM s b = Some s' -> spot s' (q + 2 * length b) w.
Proof.
  intros s q w b s' (x & R & <- & <-) E.
  destruct (ServerDet.enqueue_input_sim K o s x b R) as (s1 & E1 & R1).
  cbn in E. rewrite E1 in E. injection E as <-. eexists. split; [exact R1|].
  split; [|reflexivity]. unfold ServerAbs.x_buf, ServerDet.x_add. cbn. rewrite !app_length. lia.
Qed.

Lemma spot_call : forall s q w p s' e, spot s q w -> m_call SM s p = Some (s', e) ->
  exists w', spot s' q w'.
Proof.
  intros s q w p s' e (x & R & <- & _) E. cbn -[server_step] in E.
  assert (No : sapp_op p <> SopNext) by (destruct p; discriminate).
  destruct (server_step K s (sapp_op p)) as [[s1|] l] eqn:S; [|discriminate].
  destruct (ServerAbs.server_call_sim K o s x _ s1 l R No S) as (x' & e1 & -> & X & R').
  injection E as <- <-. eexists. exists x'. split; [exact R'|]. split; [|reflexivity].
  unfold ServerAbs.x_buf.
  destruct p; cbn -[ServerAbs.xenqueue] in X;
    try (destruct (ServerAbs.x_mode x); try (injection X as <- <-; reflexivity));
    unfold ServerAbs.xenqueue in X; destruct (hgen_generate (ServerAbs.x_gen x)); injection X as <- <-; reflexivity.
Qed.

Definition sends (r : s_ires) : Prop :=
  match r with IOutput _ => True | IEvent e => is_sent_event e = true | _ => False end.

Hypothesis Hmax : (0 < so_max_command_size o)%N.

Lemma xstep_split : forall a l a' q, ServerAbs.xwf K o a -> ServerAbs.xstep K o a l a' ->
  (forall e, l = [e] -> (exists r, e = SlNext r) \/ (exists x, e = SlRx x)) ->
  length (ServerAbs.x_buf a) + length (ServerAbs.x_rest a) = q ->
  length (ServerAbs.x_buf a') + length (ServerAbs.x_rest a') < q \/
  (length (ServerAbs.x_buf a') + length (ServerAbs.x_rest a') = q /\
   ((l = [SlNext INeedMore] /\ ServerLive.swork_send (ServerAbs.x_send a') <= ServerLive.swork_send (ServerAbs.x_send a)) \/
    (exists r, l = [SlNext r] /\ sends r /\
       ServerLive.swork_send (ServerAbs.x_send a') < ServerLive.swork_send (ServerAbs.x_send a)))).
Proof.
  intros a l a' q Hwf H Hc <-.
  destruct H as [a p a' e H|a m q Hcu Hqu|a m e Hcu He|a s1 Hs Hcond
    |a s1 w ln rest i n Hs Hmode Hrest Hfl Hfit Hok Hd Ha
    |a s1 raw rest v Hs Hbuf Hfr Hfit
    |a s1 raw rest Hs Hmode Hno Hbuf Hraw].
  - exfalso. destruct (ServerProps.xcall_label _ _ _ _ H) as [H1 H2].
    destruct (Hc e eq_refl) as [(r & E)|(x & E)]; [now apply H1 in E|now apply H2 in E].
  - right. split; [reflexivity|]. right. eexists. split; [reflexivity|]. split; [exact I|].
    unfold ServerLive.swork_send. cbn. rewrite Hcu, Hqu. cbn. lia.
  - right. split; [reflexivity|]. right. eexists. split; [reflexivity|].
    split; [destruct m as [|[|]]; inversion He; reflexivity|].
    unfold ServerLive.swork_send. cbn. rewrite Hcu. cbn. lia.
  - right. split; [reflexivity|]. left. split; [reflexivity|]. now apply ServerLive.quiet_work.
  - left. unfold ServerAbs.x_buf. cbn [ServerAbs.x_pre ServerAbs.x_rest].
    assert (1 <= length w).
    { inversion Hfl as [|n0 d0 l1 Hd0 Hl1]; subst. rewrite app_length.
      apply ReceiveProofs.is_line_nonempty in Hl1. lia. }
    rewrite Hrest, !app_length. lia.
  - left. destruct (ServerLive.frame_pre K o a raw rest v Hwf Hbuf Hfr) as (w & Ew & Hw & Er).
    unfold ServerAbs.x_start, ServerAbs.x_buf. cbn [ServerAbs.x_rest ServerAbs.x_pre app]. rewrite Er.
    destruct w; [congruence|]. rewrite !app_length. cbn [length]. lia.
  - left. unfold ServerAbs.x_start. unfold ServerAbs.x_buf at 1. cbn [ServerAbs.x_pre ServerAbs.x_rest app].
    rewrite Hbuf, !app_length. destruct Hwf as (Hlen & _).
    apply (f_equal (@length byte)) in Hbuf. unfold ServerAbs.x_buf in Hbuf. rewrite !app_length in Hbuf. lia.
Qed.

Lemma xnext_split : forall a g r a', ServerAbs.xwf K o a -> ServerAbs.xnext K o a g r a' -> r <> IPanic ->
  length (ServerAbs.x_buf a') + length (ServerAbs.x_rest a') < length (ServerAbs.x_buf a) + length (ServerAbs.x_rest a) \/
  (length (ServerAbs.x_buf a') + length (ServerAbs.x_rest a') = length (ServerAbs.x_buf a) + length (ServerAbs.x_rest a) /\
   ((r = INeedMore /\ ServerLive.swork_send (ServerAbs.x_send a') <= ServerLive.swork_send (ServerAbs.x_send a)) \/
    (sends r /\ ServerLive.swork_send (ServerAbs.x_send a') < ServerLive.swork_send (ServerAbs.x_send a)))).
Proof.
  intros a g r a' Hwf H Hp. induction H as [a g r a' H|a i a1 g r a' H H2 IH|a a' H]; [..|congruence].
  - assert (Hc : forall e, map SlRx g ++ [SlNext r] = [e] -> (exists r, e = SlNext r) \/ (exists x, e = SlRx x)).
    { intros e E. destruct g as [|x [|y g]]; cbn in E; try discriminate. injection E as <-. eauto. }
    destruct (xstep_split _ _ _ _ Hwf H Hc eq_refl) as [Q|(Q & [(E & W)|(r' & E & S & W)])]; [now left| |];
      right; (split; [exact Q|]); destruct g as [|x [|y g]]; cbn in E; try discriminate; injection E as ->; auto.
  - left.
    assert (Hc : forall e, [SlRx (SrxLit i)] = [e] -> (exists r, e = SlNext r) \/ (exists x, e = SlRx x)).
    { intros e E. injection E as <-. eauto. }
    destruct (xstep_split _ _ _ _ Hwf H Hc eq_refl) as [Q|(Q & [(E & W)|(r' & E & S & W)])]; try discriminate.
    destruct (IH (ServerAbs.xstep_wf K o _ _ _ Hwf H) Hp) as [IH1|[IH1 _]]; lia.
Qed.

Lemma spot_next : forall s q w s' r, spot s q w -> m_next SM s = Some (s', r) ->
  exists q' w', spot s' q' w' /\
    (q' < q \/
     (q' = q /\
      ((r = MNeedMore /\ w' <= w) \/
       (w' < w /\ match r with MOutput _ => True | MEvent e => is_sent_event e = true | _ => False end)))).
Proof.
  intros s q w s' r (x & R & <- & <-) E. cbn -[server_next] in E.
  destruct (server_next K s) as [[s1 g] i] eqn:N.
  destruct (ServerAbs.server_next_sim K o s x s1 g i R N) as (x' & A & _ & _ & R').
  destruct (mres_of i) as [i'|] eqn:Ei; [|discriminate]. injection E as <- <-.
  assert (Hp : i <> IPanic) by (intros ->; discriminate).
  exists (length (ServerAbs.x_buf x') + length (ServerAbs.x_rest x')), (ServerLive.swork_send (ServerAbs.x_send x')).
  split; [exists x'; split; [auto|]; auto|].
  assert (Hwf : ServerAbs.xwf K o x) by apply R.
  destruct (xnext_split x g i x' Hwf A Hp) as [Q|(Q & [(-> & W)|(S & W)])]; [now left| |]; right; (split; [exact Q|]).
  - cbn in Ei. injection Ei as <-. now left.
  - right. split; [exact W|]. destruct i; try contradiction; cbn in Ei; injection Ei as <-; exact S.
Qed.
End Server.

(** *** Streams *)

Section Side.
Context (T : tls) (M : machine) (fuel : nat).
Notation xst := (xstate T M).

Definition ret_of (r : mres (m_ev M) (m_er M)) : option (sret M) :=
  match r with MEvent e => Some (RetEvent e) | MError e => Some (RetState e) | _ => None end.

(** A step of a stream without TLS that was given [b], if it is not empty. *)
Inductive moved (x x' : xst) (b : bytes) (l' : list (xlog M)) (ret : option (sret M)) : Prop :=
| MovedIo : b = [] -> x_m x' = x_m x -> x_wbuf (x_s x) = xwritten l' ++ x_wbuf (x_s x') -> mu T M x' < mu T M x ->
    ret = None -> moved x x' b l' ret
| MovedCall : forall m1 r wb,
    match b with [] => m1 = x_m x | _ => m_enqueue M (x_m x) b = Some m1 end ->
    m_next M m1 = Some (x_m x', r) ->
    x_wbuf (x_s x) = xwritten l' ++ wb -> x_wbuf (x_s x') = wb ++ out_of M r ->
    (r = MNeedMore -> b = [] -> mu T M x' < mu T M x) -> ret = ret_of r -> moved x x' b l' ret.

Lemma returned_app : forall l l' : list (xlog M), returned l = None -> returned (l ++ l') = returned l'.
Proof. induction l as [|e l IH]; intros l' H; [reflexivity|]. destruct e; cbn in *; auto. discriminate. Qed.

Lemma sync_moved : forall (s : stream T) (m : m_st M) x' l', x_tls s = None ->
  sync T M fuel s m = (x', l') -> x_f x' <> FDead ->
  exists m1 r, match x_rbuf s with [] => m1 = m | b => m_enqueue M m b = Some m1 end /\
    m_next M m1 = Some (x_m x', r) /\ x_wbuf (x_s x') = x_wbuf s ++ out_of M r /\ xwritten l' = [] /\
    (r = MNeedMore -> rank (x_f x') = 0) /\ returned l' = ret_of r.
Proof.
  intros s m x' l' H E D. pose proof (sync_called T M fuel s m x' l' H E D) as (m1 & r & D1 & D2 & D3 & D4 & D5).
  exists m1, r. repeat (split; [assumption|]).
  unfold sync in E. destruct (sync_input T M fuel s m) as [[[s1 n1] l1] r1] eqn:I.
  assert (P : r1 = None /\ returned l1 = None /\ x_tls s1 = None /\ (n1 = None \/ n1 = Some m1)).
  { unfold sync_input in I. rewrite H in I.
    destruct (x_rbuf s) as [|b0 bs0] eqn:B; [subst; injection I as <- <- <- <-; auto|].
    rewrite D1 in I. injection I as <- <- <- <-. auto. }
  destruct P as (-> & P2 & P3 & [->| ->]); [injection E as <- <-; now contradiction D|].
  rewrite D2 in E. unfold sync_output in E. rewrite P3 in E.
  destruct r; injection E as E1 <-; rewrite ?returned_app by (rewrite ?returned_app by exact P2; reflexivity); cbn;
    try reflexivity; now rewrite returned_app.
Qed.

Lemma io_moved : forall (x : xst) a x' l', x_tls (x_s x) = None -> x_rbuf (x_s x) = [] ->
  calm a -> xstep T M fuel x a = (x', l') -> x_f x' <> FDead ->
  l' = [] \/ moved x x' [] l' (match a with AFlushed _ => None | _ => returned l' end).
Proof.
  intros x a x' l' H R C E D.
  destruct a as [| |r|[[|n]|]|[|]| |o]; try contradiction; cbn [xstep] in E.
  - destruct (x_f x) eqn:F; try (injection E as _ <-; now left).
    destruct (sync T M fuel (x_s x) (x_m x)) as [y k] eqn:S. injection E as <- <-.
    apply (sync_moved _ _ _ _ H S) in D as (m1 & r & D1 & D2 & D3 & D4 & D5 & D6). rewrite R in D1.
    right. apply (MovedCall _ _ _ _ _ m1 r (x_wbuf (x_s x))); auto.
    + cbn. now rewrite D4.
    + intros E _. unfold mu. rewrite D3, F, (D5 E), E. cbn. rewrite app_nil_r. lia.
  - destruct (writing (x_f x)) eqn:W; [|injection E as _ <-; now left].
    destruct (Nat.leb (S n) (length (x_wbuf (x_s x)))) eqn:Lb; [|injection E as _ <-; now left].
    apply Nat.leb_le in Lb. cbn [x_wbuf] in E. right.
    assert (Cut : x_wbuf (x_s x) = firstn (S n) (x_wbuf (x_s x)) ++ skipn (S n) (x_wbuf (x_s x)))
      by (symmetry; apply firstn_skipn).
    assert (Len : length (skipn (S n) (x_wbuf (x_s x))) < length (x_wbuf (x_s x)))
      by (rewrite skipn_length; lia).
    destruct (skipn (S n) (x_wbuf (x_s x))) as [|w ws] eqn:Sk.
    + destruct (x_f x) eqn:F; try discriminate.
      * destruct (sync T M fuel _ (x_m x)) as [y k] eqn:S. injection E as <- <-.
        pose proof (sync_moved (StreamSt (x_tls (x_s x)) _ _) _ _ _ H S D) as (m1 & r & D1 & D2 & D3 & D4 & D5 & D6).
        cbn [x_rbuf] in D1. rewrite R in D1. cbn [x_wbuf] in D3.
        apply (MovedCall _ _ _ _ _ m1 r []); auto.
        -- cbn [xwritten]. now rewrite D4, app_nil_r.
        -- intros E _. unfold mu. rewrite D3, F, (D5 E), E. cbn. cbn in Len. lia.
      * injection E as <- <-. apply MovedIo; auto; [cbn [xwritten]; now rewrite app_nil_r|].
        unfold mu. cbn. rewrite F. cbn in Len |- *. lia.
    + apply pair_equal_spec in E as [<- <-]. apply MovedIo; auto; cbn [xwritten]; rewrite ?app_nil_r;
        [exact Cut|]. unfold mu. cbn [x_s x_wbuf x_f]. lia.
  - destruct (x_f x) eqn:F; try (injection E as _ <-; now left). injection E as <- <-. right.
    apply MovedIo; auto. unfold mu. cbn. rewrite F. cbn. lia.
Qed.

Lemma read_moved : forall (x : xst) b bs x' l', x_tls (x_s x) = None -> x_rbuf (x_s x) = [] ->
  reading (x_f x) = true -> xstep T M fuel x (ARead (Some (b :: bs))) = (x', l') -> x_f x' <> FDead ->
  moved x x' (b :: bs) l' (returned l').
Proof.
  intros x b bs x' l' H R F E D. cbn [xstep] in E. rewrite F, R in E. cbn [app] in E.
  destruct (sync T M fuel _ (x_m x)) as [y k] eqn:S. injection E as <- <-.
  pose proof (sync_moved (StreamSt (x_tls (x_s x)) _ _) _ _ _ H S D) as (m1 & r & D1 & D2 & D3 & D4 & D5 & D6).
  cbn [x_rbuf] in D1. cbn [x_wbuf] in D3. apply (MovedCall _ _ _ _ _ m1 r (x_wbuf (x_s x))); auto; [|discriminate].
  cbn. now rewrite D4.
Qed.
End Side.

(** *** Moves of a client and a server *)

Section Moves.
Context (K : Codecs) (T : tls).
Notation CM := (client_machine K).
Notation SM := (server_machine K).

(** [n]: written and still to be written. *)
Definition wire {M} (x : xstate T M) (l : list (xlog M)) : nat := length (xwritten l) + length (x_wbuf (x_s x)).

Lemma client_moved : forall relaxed (x x' : xstate T CM) b l ret p n,
  cpot K relaxed (x_m x) p n -> moved T CM x x' b l ret ->
  exists p' n', cpot K relaxed (x_m x') p' n' /\
    (p' < p \/
     (p' <= p /\ n' < n + 2 * length b /\ wire x' l <= length (x_wbuf (x_s x))) \/
     (b = [] /\ p' <= p /\ n' <= n /\ wire x' l <= length (x_wbuf (x_s x)) /\ mu T CM x' < mu T CM x /\ ret = None)).
Proof.
  intros relaxed x x' b l ret p n P [B Hm Hw Hmu Hr|m1 r wb G N W1 W2 Mu Hr]; unfold wire.
  - exists p, n. rewrite Hm. split; [exact P|]. right. right. rewrite Hw, app_length. auto 6.
  - assert (P1 : cpot K relaxed m1 p (n + length b)).
    { destruct b; [subst m1; cbn; now rewrite Nat.add_0_r|]. eapply cpot_give; eauto. }
    destruct (cpot_next K relaxed _ _ _ _ _ P1 N) as (p' & n' & P' & C). exists p', n'. split; [exact P'|].
    rewrite W1, W2, !app_length.
    destruct C as [(-> & C1 & C2)|[C|(C1 & C2 & C3)]]; [|now left|].
    + right. cbn [out_of length ret_of] in *. destruct b as [|b bs].
      * right. cbn [length] in C2. specialize (Mu eq_refl eq_refl). repeat split; auto; lia.
      * left. cbn [length] in *. lia.
    + right. left. rewrite C3. cbn [length]. lia.
Qed.

Lemma server_moved : forall o (x x' : xstate T SM) b l ret q w, (0 < so_max_command_size o)%N ->
  spot K o (x_m x) q w -> moved T SM x x' b l ret ->
  exists q' w', spot K o (x_m x') q' w' /\
    (q' < q + 3 * length b \/
     (b = [] /\ q' <= q /\ w' < w /\
        match ret with None => True | Some (RetEvent e) => is_sent_event e = true | Some _ => False end) \/
     (b = [] /\ q' <= q /\ w' <= w /\ wire x' l <= length (x_wbuf (x_s x)) /\ mu T SM x' < mu T SM x /\ ret = None)).
Proof.
  intros o x x' b l ret q w Hmax P [B Hm Hw Hmu Hr|m1 r wb G N W1 W2 Mu Hr]; unfold wire.
  - exists q, w. rewrite Hm. split; [exact P|]. right. right. rewrite Hw, app_length. auto 6.
  - assert (P1 : spot K o m1 (q + 2 * length b) w).
    { destruct b; [subst m1; cbn; now rewrite Nat.add_0_r|]. eapply spot_give; eauto. }
    destruct (spot_next K o Hmax _ _ _ _ _ P1 N) as (q' & w' & P' & C). exists q', w'. split; [exact P'|].
    rewrite W1, W2, !app_length. destruct b as [|b bs]; [|left; cbn [length] in *; lia].
    cbn [length] in C. destruct C as [C|(C & [(-> & C1)|(C1 & C2)])]; [left; cbn [length]; lia| |]; right.
    + right. cbn [out_of length ret_of] in *. specialize (Mu eq_refl eq_refl). repeat split; auto; lia.
    + left. split; [reflexivity|]. split; [lia|]. split; [exact C1|].
      rewrite Hr. destruct r; cbn; auto.
Qed.
End Moves.
