(** The two streams of the proxy run as streams do alone. *)
From Coq Require Import List NArith Bool PeanoNat Lia.
From Verif Require Import Base Types Codec Handle Receive ClientSend Client ServerSend Server
  SpecFraming SpecClient SpecServer Stream StreamMachine SpecStream StreamProofs StreamState
  StreamEvents ServerThms ProxyUtil Proxy SpecProxy ProxyFilter ProxyEffect ProxyProofs ProxyInv.
Import ListNotations.

Section Runs.
Context (K : Codecs) (Tc Ts : tls) (fuel : nat) (gs gc : hgen) (c0 : stream Tc) (s0 : stream Ts).
Notation SM := (server_machine K).
Notation CM := (client_machine K).

(** [x] is reached by the [Client] with log [l]; by the [Server], which greets with [g]. *)
Definition client_ran (x : xstate Ts CM) (l : list (xlog CM)) : Prop :=
  exists acts, xrun Ts CM fuel (@XState Ts CM s0 (client_new gc false) FIdle) acts = (x, l).
Definition server_ran (g : greeting) (x : xstate Tc SM) (l : list (xlog SM)) : Prop :=
  exists acts, xrun Tc SM fuel (@XState Tc SM c0 (server_new gs proxy_soptions g) FIdle) acts = (x, l).

Lemma client_ran_step : forall x l a x' l', client_ran x l -> xstep Ts CM fuel x a = (x', l') ->
  client_ran x' (l ++ l').
Proof.
  intros x l a x' l' [acts H] E. exists (acts ++ [a]). rewrite xrun_app, H. cbn [xrun].
  rewrite E. now rewrite app_nil_r.
Qed.
Lemma server_ran_step : forall g x l a x' l', server_ran g x l -> xstep Tc SM fuel x a = (x', l') ->
  server_ran g x' (l ++ l').
Proof.
  intros g x l a x' l' [acts H] E. exists (acts ++ [a]). rewrite xrun_app, H. cbn [xrun].
  rewrite E. now rewrite app_nil_r.
Qed.

(** The first event of the server is its greeting; the client gets it reduced. *)
Definition greeted_with (l : list (plog K)) (g : greeting) : Prop :=
  exists es, server_events l = CeGreetingReceived g :: es.

Lemma greeted_with_app : forall l l' g, greeted_with l g -> greeted_with (l ++ l') g.
Proof. intros l l' g [es H]. exists (es ++ server_events l'). rewrite server_events_app, H. reflexivity. Qed.

Definition pinv (p : pstate K Tc Ts) (l : list (plog K)) : Prop :=
  match p with
  | PsGreeting c s =>
      c = c0 /\ client_ran s (at_server l) /\ x_f s <> FDead /\ at_client l = [] /\ server_events l = []
  | PsLoop c s =>
      client_ran s (at_server l) /\ x_f s <> FDead /\
      exists g, greeted_with l g /\ server_ran (filter_greeting g) c (at_client l) /\ x_f c <> FDead
  | PsEnd _ =>
      (exists s, client_ran s (at_server l)) /\
      (at_client l = [] \/
       exists g c, greeted_with l g /\ server_ran (filter_greeting g) c (at_client l))
  end.

Lemma not_dead : forall f, is_dead f = false -> f <> FDead.
Proof. intros f H ->. discriminate. Qed.

Lemma client_side_ran : forall l c s a p1 l1,
  pinv (PsLoop c s) l -> client_side K Tc Ts fuel c s a = (p1, l1) -> pinv p1 (l ++ l1).
Proof.
  intros l c s a p1 l1 (H1 & H2 & g & H3 & H4 & H5) E. unfold client_side in E.
  destruct (xstep Tc SM fuel c (io_act SM a)) as [c1 lx] eqn:X.
  pose proof (server_ran_step _ _ _ _ _ _ H4 X) as H6.
  assert (P1 : forall l2, at_client (l ++ map PlClient lx ++ map PlServer l2) = at_client l ++ lx).
  { intro l2. now rewrite !at_client_app, at_client_map, at_client_other, app_nil_r. }
  assert (P2 : forall l2, at_server (l ++ map PlClient lx ++ map PlServer l2) = at_server l ++ l2).
  { intro l2. now rewrite !at_server_app, at_server_map, at_server_other. }
  destruct (is_dead (x_f c1)) eqn:D.
  { apply pair_equal_spec in E as [<- <-]. rewrite <- (app_nil_r (map PlClient lx)).
    change (@nil (plog K)) with (map (@PlServer K) []).
    split; [exists s; rewrite P2, app_nil_r; exact H1|]. right. exists g, c1.
    split; [now apply greeted_with_app|]. now rewrite P1. }
  apply not_dead in D.
  destruct (returned lx) as [r|].
  2:{ apply pair_equal_spec in E as [<- <-]. rewrite <- (app_nil_r (map PlClient lx)).
      change (@nil (plog K)) with (map (@PlServer K) []).
      split; [rewrite P2, app_nil_r; exact H1|]. split; [exact H2|]. exists g.
      split; [now apply greeted_with_app|]. now rewrite P1. }
  destruct (xstep Ts CM fuel s ACancel) as [s1 l2] eqn:C.
  pose proof (client_ran_step _ _ _ _ _ H1 C) as H7.
  apply cancel_step in C as (_ & _ & Cf & _). specialize (Cf H2).
  destruct (handle_client_event K r) as [| |o u].
  - apply pair_equal_spec in E as [<- <-]. cbn [pinv].
    rewrite app_assoc, at_server_app, at_client_app, P1, P2. cbn. rewrite !app_nil_r.
    split; [exists s1; exact H7|]. right. exists g, c1. split; [|exact H6].
    now apply greeted_with_app, greeted_with_app.
  - apply pair_equal_spec in E as [<- <-]. cbn [pinv]. rewrite P1, P2.
    split; [exact H7|]. split; [rewrite Cf; discriminate|]. exists g.
    split; [now apply greeted_with_app|]. auto.
  - assert (CL : forall y k, xstep Ts CM fuel s1 (@ACall CM o) = (y, k) -> client_ran y (at_server l ++ l2 ++ k)).
    { intros y k Y. rewrite app_assoc. eapply client_ran_step; eauto. }
    cbn [xstep] in CL. rewrite Cf in CL.
    destruct (m_call CM (x_m s1) o) as [[m e]|].
    + specialize (CL _ _ eq_refl).
      assert (CL' : client_ran (@XState Ts CM (x_s s1) m (x_f s1)) (at_server l ++ l2 ++ [@XCall CM o e]))
        by (rewrite Cf; exact CL).
      destruct (u && c_call_failed e); apply pair_equal_spec in E as [<- <-]; cbn [pinv x_f].
      * rewrite <- !app_assoc. rewrite !at_server_app, !at_client_app, at_server_map, at_client_map, at_server_other, at_client_other.
        cbn [at_client at_server app]. rewrite app_nil_r.
        split; [eexists; exact CL'|]. right. exists g, c1. split; [|exact H6]. now apply greeted_with_app.
      * rewrite <- !app_assoc. rewrite !at_server_app, !at_client_app, at_server_map, at_client_map, at_server_other, at_client_other.
        cbn [at_client at_server app]. rewrite app_nil_r.
        split; [exact CL'|]. split; [rewrite Cf; discriminate|]. exists g.
        split; [|auto]. now apply greeted_with_app.
    + specialize (CL _ _ eq_refl). apply pair_equal_spec in E as [<- <-]. cbn [pinv].
      rewrite <- !app_assoc. rewrite !at_server_app, !at_client_app, at_server_map, at_client_map, at_server_other, at_client_other.
      cbn [at_client at_server app]. rewrite app_nil_r.
      split; [eexists; exact CL|]. right. exists g, c1. split; [|exact H6]. now apply greeted_with_app.
Qed.

Lemma server_side_ran : forall l c s a p1 l1,
  pinv (PsLoop c s) l -> server_side K Tc Ts fuel c s a = (p1, l1) -> pinv p1 (l ++ l1).
Proof.
  intros l c s a p1 l1 (H1 & H2 & g & H3 & H4 & H5) E. unfold server_side in E.
  destruct (xstep Ts CM fuel s (io_act CM a)) as [s1 lx] eqn:X.
  pose proof (client_ran_step _ _ _ _ _ H1 X) as H6.
  assert (P1 : forall l2, at_server (l ++ map PlServer lx ++ map PlClient l2) = at_server l ++ lx).
  { intro l2. now rewrite !at_server_app, at_server_map, at_server_other, app_nil_r. }
  assert (P2 : forall l2, at_client (l ++ map PlServer lx ++ map PlClient l2) = at_client l ++ l2).
  { intro l2. now rewrite !at_client_app, at_client_map, at_client_other. }
  destruct (is_dead (x_f s1)) eqn:D.
  { apply pair_equal_spec in E as [<- <-]. rewrite <- (app_nil_r (map PlServer lx)).
    change (@nil (plog K)) with (map (@PlClient K) []).
    split; [exists s1; rewrite P1; exact H6|]. right. exists g, c.
    split; [now apply greeted_with_app|]. now rewrite P2, app_nil_r. }
  apply not_dead in D.
  destruct (returned lx) as [r|].
  2:{ apply pair_equal_spec in E as [<- <-]. rewrite <- (app_nil_r (map PlServer lx)).
      change (@nil (plog K)) with (map (@PlClient K) []).
      split; [rewrite P1; exact H6|]. split; [exact D|]. exists g.
      split; [now apply greeted_with_app|]. now rewrite P2, app_nil_r. }
  destruct (xstep Tc SM fuel c ACancel) as [c1 l2] eqn:C.
  pose proof (server_ran_step _ _ _ _ _ _ H4 C) as H7.
  apply cancel_step in C as (_ & _ & Cf & _). specialize (Cf H5).
  destruct (handle_server_event K r) as [| |o u].
  - apply pair_equal_spec in E as [<- <-]. cbn [pinv].
    rewrite app_assoc, at_server_app, at_client_app, P1, P2. cbn. rewrite !app_nil_r.
    split; [exists s1; exact H6|]. right. exists g, c1. split; [|exact H7].
    now apply greeted_with_app, greeted_with_app.
  - apply pair_equal_spec in E as [<- <-]. cbn [pinv]. rewrite P1, P2.
    split; [exact H6|]. split; [exact D|]. exists g.
    split; [now apply greeted_with_app|]. split; [exact H7|]. rewrite Cf; discriminate.
  - assert (CL : forall y k, xstep Tc SM fuel c1 (@ACall SM o) = (y, k) -> server_ran (filter_greeting g) y (at_client l ++ l2 ++ k)).
    { intros y k Y. rewrite app_assoc. eapply server_ran_step; eauto. }
    cbn [xstep] in CL. rewrite Cf in CL.
    destruct (m_call SM (x_m c1) o) as [[m e]|].
    + specialize (CL _ _ eq_refl).
      assert (CL' : server_ran (filter_greeting g) (@XState Tc SM (x_s c1) m (x_f c1)) (at_client l ++ l2 ++ [@XCall SM o e]))
        by (rewrite Cf; exact CL).
      destruct (u && s_call_failed e); apply pair_equal_spec in E as [<- <-]; cbn [pinv x_f].
      * rewrite <- !app_assoc. rewrite !at_server_app, !at_client_app, at_server_map, at_client_map, at_server_other, at_client_other.
        cbn [at_client at_server app]. rewrite app_nil_r.
        split; [eexists; exact H6|]. right. eexists g, _. split; [|exact CL']. now apply greeted_with_app.
      * rewrite <- !app_assoc. rewrite !at_server_app, !at_client_app, at_server_map, at_client_map, at_server_other, at_client_other.
        cbn [at_client at_server app]. rewrite app_nil_r.
        split; [exact H6|]. split; [exact D|]. exists g.
        split; [now apply greeted_with_app|]. split; [exact CL'|]. rewrite Cf; discriminate.
    + specialize (CL _ _ eq_refl). apply pair_equal_spec in E as [<- <-]. cbn [pinv].
      rewrite <- !app_assoc. rewrite !at_server_app, !at_client_app, at_server_map, at_client_map, at_server_other, at_client_other.
      cbn [at_client at_server app]. rewrite app_nil_r.
      split; [eexists; exact H6|]. right. eexists g, _. split; [|exact CL]. now apply greeted_with_app.
Qed.

Lemma greeting_side_ran : forall l c s a p1 l1,
  pinv (PsGreeting c s) l -> greeting_side K Tc Ts fuel gs c s a = (p1, l1) -> pinv p1 (l ++ l1).
Proof.
  intros l c s a p1 l1 (-> & H1 & H2 & H3 & H4) E. unfold greeting_side in E.
  destruct (xstep Ts CM fuel s (io_act CM a)) as [s1 lx] eqn:X.
  pose proof (client_ran_step _ _ _ _ _ H1 X) as H6.
  pose proof (server_io_log Ts fuel s a s1 lx X) as (_ & A2 & _).
  assert (P1 : at_server (l ++ map PlServer lx) = at_server l ++ lx).
  { now rewrite !at_server_app, at_server_map. }
  assert (P2 : at_client (l ++ map PlServer lx) = []).
  { now rewrite !at_client_app, at_client_other, H3. }
  assert (QA : forall why lz, at_client lz = [] -> at_server lz = [] -> pinv (PsEnd why) (l ++ map PlServer lx ++ lz)).
  { intros why lz Z1 Z2. split; [exists s1|left].
    - now rewrite app_assoc, at_server_app, P1, Z2, app_nil_r.
    - now rewrite app_assoc, at_client_app, P2, Z1. }
  destruct (is_dead (x_f s1)) eqn:D.
  { apply pair_equal_spec in E as [<- <-]. rewrite <- (app_nil_r (map PlServer lx)). now apply QA. }
  apply not_dead in D.
  destruct (returned lx) as [r|].
  2:{ apply pair_equal_spec in E as [<- <-]. cbn [pinv]. rewrite P1, P2.
      repeat split; auto. now rewrite server_events_app, H4, A2. }
  destruct r as [e| | | | |]; try (apply pair_equal_spec in E as [<- <-]; now apply QA).
  destruct e; try (apply pair_equal_spec in E as [<- <-]; now apply QA).
  apply pair_equal_spec in E as [<- <-]. cbn [pinv]. rewrite P1, P2.
  split; [exact H6|]. split; [exact D|]. exists g.
  split; [exists []; now rewrite server_events_app, H4, A2|]. split; [|discriminate].
  exists []. reflexivity.
Qed.

Lemma pinv_step : forall p l a p1 l1, pinv p l -> pstep K Tc Ts fuel gs p a = (p1, l1) -> pinv p1 (l ++ l1).
Proof.
  intros p1 l1 [b a] p2 l2 H S. destruct p1 as [c s|c s|why]; destruct b; cbn [pstep] in S;
    try (injection S as <- <-; now rewrite app_nil_r).
  - eapply greeting_side_ran; eauto.
  - eapply server_side_ran; eauto.
  - eapply client_side_ran; eauto.
Qed.

Lemma pinv_start : pinv (proxy_start K Tc Ts c0 s0 gc) [].
Proof. cbn. repeat split; auto; [exists []; reflexivity|discriminate]. Qed.

(** The log of each side is the log of a run of a stream with a [Client] (without relaxed
    line endings), respectively a [Server]. *)
Theorem proxy_runs_streams : forall acts p l,
  prun K Tc Ts fuel gs (proxy_start K Tc Ts c0 s0 gc) acts = (p, l) ->
  (exists s, client_ran s (at_server l)) /\
  (at_client l = [] \/
   exists g c, greeted_with l g /\ server_ran (filter_greeting g) c (at_client l)).
Proof.
  intros acts p l E.
  assert (I : pinv p ([] ++ l)).
  { exact (prun_ind K Tc Ts fuel gs pinv pinv_step acts _ [] p l pinv_start E). }
  cbn [app] in I. destruct p as [c s|c s|why]; cbn [pinv] in I.
  - destruct I as (_ & I1 & _ & I2 & _). split; [exists s; exact I1|now left].
  - destruct I as (I1 & _ & g & I2 & I3 & _). split; [exists s; exact I1|]. right. exists g, c. auto.
  - exact I.
Qed.

(** [Client] and [Server] do not panic in the proxy. *)
Theorem proxy_states_live : forall acts p l,
  no_trailing K false -> single_lines K -> sno_trailing K proxy_soptions ->
  prun K Tc Ts fuel gs (proxy_start K Tc Ts c0 s0 gc) acts = (p, l) -> ~ broken l.
Proof.
  intros acts p l L1 L2 L3 E. apply proxy_runs_streams in E as [[s [a1 E1]] E2].
  assert (I1 : forall x, In (PlServer x) l -> In x (at_server l)).
  { clear. induction l as [|[] l IH]; cbn; intros x H; try contradiction; destruct H as [H|H]; try discriminate; auto.
    injection H as <-. now left. }
  assert (I2 : forall x, In (PlClient x) l -> In x (at_client l)).
  { clear. induction l as [|[] l IH]; cbn; intros x H; try contradiction; destruct H as [H|H]; try discriminate; auto.
    injection H as <-. now left. }
  intros [B|B].
  - apply I2 in B. destruct E2 as [E2|(g & c & _ & a2 & E2)]; [rewrite E2 in B; contradiction|].
    eapply stream_no_panic in E2; [contradiction|]. intro cs. now apply server_calls_live.
  - apply I1 in B. eapply stream_no_panic in E1; [contradiction|]. intro cs. now apply client_calls_live.
Qed.

(** ** How the proxy ends *)

Lemma existsb_calm : forall M (f : xlog M -> plog K) (l : list (xlog M)),
  (forall e, calm e -> loses (f e) = false) -> Forall calm l -> existsb loses (map f l) = false.
Proof. intros M f l H F. induction F as [|e l He F IH]; [reflexivity|]. cbn. now rewrite H, IH. Qed.

Lemma calm_loses_client : forall e : xlog SM, calm e -> loses (@PlClient K e) = false.
Proof. intros e H. destruct e; try reflexivity. contradiction. Qed.
Lemma calm_loses_server : forall e : xlog CM, calm e -> loses (@PlServer K e) = false.
Proof. intros e H. destruct e; try reflexivity. contradiction. Qed.

Definition lost_ret {M} (r : option (sret M)) : bool := match r with Some r => is_lost r | None => false end.

Lemma client_io_loses : forall c a c1 lx, xstep Tc SM fuel c (io_act SM a) = (c1, lx) ->
  existsb loses (map (@PlClient K) lx) = lost_ret (returned lx).
Proof.
  intros c a c1 lx E. apply io_shape in E as (pre & post & El & Hp & He).
  rewrite El at 1. rewrite map_app, existsb_app, (existsb_calm SM PlClient pre calm_loses_client Hp).
  destruct He as [|r [->|[->| ->]]|e|e]; reflexivity.
Qed.
Lemma server_io_loses : forall s a s1 lx, xstep Ts CM fuel s (io_act CM a) = (s1, lx) ->
  existsb loses (map (@PlServer K) lx) = lost_ret (returned lx).
Proof.
  intros s a s1 lx E. apply io_shape in E as (pre & post & El & Hp & He).
  rewrite El at 1. rewrite map_app, existsb_app, (existsb_calm CM PlServer pre calm_loses_server Hp).
  destruct He as [|r [->|[->| ->]]|e|e]; reflexivity.
Qed.

Lemma returned_in : forall M (l : list (xlog M)) r, returned l = Some r -> In (XRet r) l.
Proof.
  intros M l r H. induction l as [|e l IH]; [discriminate|].
  destruct e; cbn in *; auto. injection H as <-. now left.
Qed.

Lemma stopped_client : forall c a c1 lx l, xstep Tc SM fuel c (io_act SM a) = (c1, lx) ->
  x_f c <> FDead -> is_dead (x_f c1) = true -> cause (stopped lx) (l ++ map (@PlClient K) lx).
Proof.
  intros c a c1 lx l E N D. unfold stopped. destruct (existsb is_xpanic lx) eqn:X.
  - apply existsb_exists in X as (e & X1 & X2). destruct e; try discriminate.
    apply ca_broken. left. apply in_or_app. right. now apply in_map.
  - apply ca_hung. left. apply in_or_app. right. apply in_map.
    eapply io_dead in E as [E|E]; auto; [|now destruct (x_f c1)].
    exfalso. assert (existsb is_xpanic lx = true) by (apply existsb_exists; exists XPanic; auto). congruence.
Qed.
Lemma stopped_server : forall s a s1 lx l, xstep Ts CM fuel s (io_act CM a) = (s1, lx) ->
  x_f s <> FDead -> is_dead (x_f s1) = true -> cause (stopped lx) (l ++ map (@PlServer K) lx).
Proof.
  intros c a c1 lx l E N D. unfold stopped. destruct (existsb is_xpanic lx) eqn:X.
  - apply existsb_exists in X as (e & X1 & X2). destruct e; try discriminate.
    apply ca_broken. right. apply in_or_app. right. now apply in_map.
  - apply ca_hung. right. apply in_or_app. right. apply in_map.
    eapply io_dead in E as [E|E]; auto; [|now destruct (x_f c1)].
    exfalso. assert (existsb is_xpanic lx = true) by (apply existsb_exists; exists XPanic; auto). congruence.
Qed.

Lemma cancel_loses : forall l2 : list (xlog CM), l2 = [] \/ l2 = [XCancel] -> existsb loses (map (@PlServer K) l2) = false.
Proof. intros l2 [->| ->]; reflexivity. Qed.
Lemma cancel_loses' : forall l2 : list (xlog SM), l2 = [] \/ l2 = [XCancel] -> existsb loses (map (@PlClient K) l2) = false.
Proof. intros l2 [->| ->]; reflexivity. Qed.

(** While the proxy runs, no connection is lost. *)
Definition cinv (p : pstate K Tc Ts) (l : list (plog K)) : Prop :=
  match p with
  | PsGreeting c s => existsb loses l = false
  | PsLoop c s => existsb loses l = false
  | PsEnd why => cause why l
  end.

Lemma cinv_step : forall p l a p1 l1,
  hinv K Tc Ts p l /\ pinv p l /\ cinv p l -> pstep K Tc Ts fuel gs p a = (p1, l1) -> hinv K Tc Ts p1 (l ++ l1) ->
  cinv p1 (l ++ l1).
Proof.
  intros p l [b a] p1 l1 (HI & PI & CI) E H1.
  destruct p as [c s|c s|why]; destruct b; cbn [pstep] in E;
    try (injection E as <- <-; now rewrite app_nil_r).
  - destruct HI as (G0 & _ & _ & GE & _). destruct PI as (_ & _ & PF & _).
    unfold greeting_side in E. destruct (xstep Ts CM fuel s (io_act CM a)) as [s1 lx] eqn:X.
    pose proof (client_io K Ts fuel s false a s1 lx G0 X) as G.
    pose proof (server_io_loses _ _ _ _ X) as LO.
    pose proof (server_io_log Ts fuel s a s1 lx X) as (_ & A2 & _).
    destruct (is_dead (x_f s1)) eqn:D.
    { apply pair_equal_spec in E as [<- <-]. eapply stopped_server; eauto. }
    destruct (returned lx) as [r|] eqn:R.
    2:{ apply pair_equal_spec in E as [<- <-]. cbn [cinv] in *. now rewrite existsb_app, CI, LO. }
    assert (Z : is_lost r = true -> cause PeAborted (l ++ map PlServer lx ++ [@PlAbort K])).
    { intro Z. apply ca_lost. rewrite !existsb_app, LO. cbn [lost_ret]. rewrite Z. cbn. apply orb_true_r. }
    apply returned_in in R.
    destruct r as [e|e| | | |]; try (apply pair_equal_spec in E as [<- <-]; now apply Z).
    + destruct G as (_ & G & _). destruct e; try discriminate G.
      apply pair_equal_spec in E as [<- <-]. cbn [cinv] in *. rewrite existsb_app, CI, LO. reflexivity.
    + apply pair_equal_spec in E as [<- <-]. apply ca_greeting. split.
      * rewrite !server_events_app, GE, A2. reflexivity.
      * exists e. rewrite !in_app_iff. right. left. now apply in_map.
    + exfalso. clear - X R. apply io_shape in X as (pre & post & -> & Hp & He).
      apply in_app_or in R as [R|R].
      * rewrite Forall_forall in Hp. now apply Hp in R.
      * destruct He as [|r [->|[->| ->]]|e|e]; cbn in R; intuition discriminate.
  - destruct PI as (_ & PF & _). unfold server_side in E.
    destruct (xstep Ts CM fuel s (io_act CM a)) as [s1 lx] eqn:X.
    pose proof (server_io_loses _ _ _ _ X) as LO.
    destruct (is_dead (x_f s1)) eqn:D.
    { apply pair_equal_spec in E as [<- <-]. eapply stopped_server; eauto. }
    destruct (returned lx) as [r|] eqn:R.
    2:{ apply pair_equal_spec in E as [<- <-]. cbn [cinv] in *. now rewrite existsb_app, CI, LO. }
    destruct (xstep Tc SM fuel c ACancel) as [c1 l2] eqn:C.
    apply cancel_step in C as (_ & _ & _ & Cl). apply cancel_loses' in Cl.
    destruct (handle_server_event K r) as [| |o u] eqn:HE.
    + apply pair_equal_spec in E as [<- <-]. apply ca_lost. rewrite !existsb_app, LO. cbn [lost_ret].
      destruct r as [e| | | | |]; cbn in HE; try discriminate; cbn; rewrite ?orb_true_r; auto.
      destruct e; discriminate.
    + apply pair_equal_spec in E as [<- <-]. cbn [cinv] in *. rewrite !existsb_app, CI, LO, Cl.
      destruct r; cbn in HE; try discriminate; reflexivity.
    + assert (NL : is_lost r = false) by (destruct r; cbn in HE; try discriminate; reflexivity).
      destruct (m_call SM (x_m c1) o) as [[m e]|].
      * destruct (u && s_call_failed e); apply pair_equal_spec in E as [<- <-].
        -- destruct H1 as (_ & _ & H1). apply ca_unwrap, H1. rewrite !in_app_iff. cbn. auto.
        -- cbn [cinv] in *. rewrite !existsb_app, CI, LO, Cl. cbn. now rewrite NL.
      * apply pair_equal_spec in E as [<- <-]. apply ca_broken. left. rewrite !in_app_iff. cbn. auto.
  - destruct PI as (_ & _ & g & _ & _ & PF). unfold client_side in E.
    destruct (xstep Tc SM fuel c (io_act SM a)) as [c1 lx] eqn:X.
    pose proof (client_io_loses _ _ _ _ X) as LO.
    destruct (is_dead (x_f c1)) eqn:D.
    { apply pair_equal_spec in E as [<- <-]. eapply stopped_client; eauto. }
    destruct (returned lx) as [r|] eqn:R.
    2:{ apply pair_equal_spec in E as [<- <-]. cbn [cinv] in *. now rewrite existsb_app, CI, LO. }
    destruct (xstep Ts CM fuel s ACancel) as [s1 l2] eqn:C.
    apply cancel_step in C as (_ & _ & _ & Cl). apply cancel_loses in Cl.
    destruct (handle_client_event K r) as [| |o u] eqn:HE.
    + apply pair_equal_spec in E as [<- <-]. apply ca_lost. rewrite !existsb_app, LO. cbn [lost_ret].
      destruct r as [e| | | | |]; cbn in HE; try discriminate; cbn; rewrite ?orb_true_r; auto.
      destruct e; discriminate.
    + apply pair_equal_spec in E as [<- <-]. cbn [cinv] in *. rewrite !existsb_app, CI, LO, Cl.
      destruct r; cbn in HE; try discriminate; reflexivity.
    + assert (NL : is_lost r = false) by (destruct r; cbn in HE; try discriminate; reflexivity).
      destruct (m_call CM (x_m s1) o) as [[m e]|].
      * destruct (u && c_call_failed e); apply pair_equal_spec in E as [<- <-].
        -- destruct H1 as (_ & _ & H1). apply ca_unwrap, H1. rewrite !in_app_iff. cbn. auto.
        -- cbn [cinv] in *. rewrite !existsb_app, CI, LO, Cl. cbn. now rewrite NL.
      * apply pair_equal_spec in E as [<- <-]. apply ca_broken. right. rewrite !in_app_iff. cbn. auto.
Qed.

Theorem proxy_ends : forall acts p l,
  prun K Tc Ts fuel gs (proxy_start K Tc Ts c0 s0 gc) acts = (p, l) -> cinv p l.
Proof.
  intros acts p l E.
  apply (prun_ind K Tc Ts fuel gs (fun p l => hinv K Tc Ts p l /\ pinv p l /\ cinv p l)) with (l := []) in E.
  - apply E.
  - intros p1 l1 a p2 l2 H S. pose proof H as (H1 & H2 & _).
    pose proof (pstep_inv K Tc Ts fuel gs _ _ _ _ _ H1 S) as H3.
    split; [exact H3|]. split; [eapply pinv_step; eauto|]. eapply cinv_step; eauto.
  - split; [apply hinv_start|]. split; [apply pinv_start|reflexivity].
Qed.
End Runs.

(** ** Statements about runs *)

Section Statements.
Context (K : Codecs) (Tc Ts : tls) (fuel : nat) (gs : hgen) (c : stream Tc) (s : stream Ts) (gc : hgen).
Notation start := (proxy_start K Tc Ts c s gc).

Lemma proxy_forwards_running : forall acts c' s' l, prun K Tc Ts fuel gs start acts = (PsLoop c' s', l) ->
  forwards l.
Proof. intros acts c' s' l E. apply prun_inv in E. apply E. Qed.

Lemma proxy_forwards : forall acts p l,
  no_trailing K false -> single_lines K -> sno_trailing K proxy_soptions ->
  prun K Tc Ts fuel gs start acts = (p, l) -> forwards l.
Proof.
  intros acts p l H1 H2 H3 E. pose proof (proxy_states_live _ _ _ _ _ _ _ _ _ _ _ H1 H2 H3 E) as B.
  apply prun_inv in E. destruct p.
  - destruct E as (_ & _ & E1 & E2 & E3 & E4 & _). unfold forwards. rewrite E1, E2, E3, E4. split; [reflexivity|constructor].
  - apply E.
  - destruct E as ([E|E] & _); [contradiction|exact E].
Qed.

Lemma proxy_succeeds : forall acts p l, prun K Tc Ts fuel gs start acts = (p, l) -> ~ In PlPanic l -> succeeded l.
Proof.
  intros acts p l E N. apply prun_inv in E. destruct p.
  - destruct E as (_ & _ & E1 & E2 & E3 & E4 & _). unfold succeeded. rewrite E3, E4. split; constructor.
  - apply E.
  - now apply E.
Qed.

Lemma proxy_panics : forall acts p l, prun K Tc Ts fuel gs start acts = (p, l) -> In PlPanic l -> culprit l.
Proof. intros acts p l E H. apply prun_inv in E. destruct p; [| |now apply E]; exfalso; now apply E. Qed.

Lemma proxy_panicked : forall acts l,
  no_trailing K false -> single_lines K -> sno_trailing K proxy_soptions ->
  prun K Tc Ts fuel gs start acts = (PsEnd PePanicked, l) -> culprit l.
Proof.
  intros acts l H1 H2 H3 E. pose proof (proxy_states_live _ _ _ _ _ _ _ _ _ _ _ H1 H2 H3 E) as B.
  apply proxy_ends in E. cbn in E. inversion E; [assumption|contradiction].
Qed.

Lemma proxy_ends' : forall acts p l, prun K Tc Ts fuel gs start acts = (p, l) ->
  match p with
  | PsGreeting _ _ | PsLoop _ _ => existsb loses l = false
  | PsEnd why => cause why l
  end.
Proof. intros acts p l E. apply proxy_ends in E. destruct p; exact E. Qed.

Lemma proxy_ends_lost : forall acts why l,
  no_trailing K false -> single_lines K -> sno_trailing K proxy_soptions ->
  prun K Tc Ts fuel gs start acts = (PsEnd why, l) ->
  server_events l <> [] -> ~ In (PlClient XHang) l -> ~ In (PlServer XHang) l ->
  existsb loses l = true \/ culprit l.
Proof.
  intros acts why l H1 H2 H3 E N X1 X2. pose proof (proxy_states_live _ _ _ _ _ _ _ _ _ _ _ H1 H2 H3 E) as B.
  apply proxy_ends in E. cbn in E. inversion E as [l1 H|l1 H|l1 H|l1 H|l1 H]; subst; auto.
  - tauto.
  - destruct H as [H _]. contradiction.
Qed.

Lemma proxy_streams : forall acts p l, prun K Tc Ts fuel gs start acts = (p, l) ->
  (exists acts' x, xrun Ts (client_machine K) fuel
     (@XState Ts (client_machine K) s (client_new gc false) FIdle) acts' = (x, at_server l)) /\
  (at_client l = [] \/
   exists g g' es acts' x, server_events l = CeGreetingReceived g :: es /\ greeting_reduced g g' /\
     xrun Tc (server_machine K) fuel
       (@XState Tc (server_machine K) c (server_new gs proxy_soptions g') FIdle) acts' = (x, at_client l)).
Proof.
  intros acts p l E. apply proxy_runs_streams in E as ((x & a & E1) & E2). split; [exists a, x; exact E1|].
  destruct E2 as [E2|(g & y & (es & E2) & a' & E3)]; [now left|]. right.
  exists g, (filter_greeting g), es, a', y. split; [exact E2|]. split; [apply filter_greeting_reduced|exact E3].
Qed.

Lemma relayed_supported : forall e r, relayed e (SaEnqueue r) -> Forall supported (response_caps r).
Proof.
  intros e r H. inversion H; subst.
  - constructor.
  - constructor.
  - eapply response_reduced_supported; eassumption.
Qed.

Lemma enqueued_step : forall p a p1 l1, pstep K Tc Ts fuel gs p a = (p1, l1) ->
  forall r x, In (SaEnqueue r, x) (calls_to_client l1) -> Forall supported (response_caps r).
Proof.
  intros p [b a] p1 l1 E r x H.
  destruct p as [c1 s1|c1 s1|why]; destruct b; cbn [pstep] in E;
    try (apply pair_equal_spec in E as [<- <-]; contradiction).
  - unfold greeting_side in E. destruct (xstep Ts (client_machine K) fuel s1 (io_act _ a)) as [s2 lx] eqn:X.
    pose proof (server_io_log Ts fuel s1 a s2 lx X) as (_ & _ & A & _).
    assert (N : l1 = map PlServer lx \/ l1 = map PlServer lx ++ [PlAbort]).
    { destruct (is_dead (x_f s2)); [apply pair_equal_spec in E as [_ <-]; auto|].
      destruct (returned lx) as [[e| | | | |]|]; try (apply pair_equal_spec in E as [_ <-]; auto).
      destruct e; apply pair_equal_spec in E as [_ <-]; auto. }
    exfalso. destruct N as [->| ->]; rewrite ?calls_to_client_app, A in H; contradiction.
  - unfold server_side in E. destruct (xstep Ts (client_machine K) fuel s1 (io_act _ a)) as [s2 lx] eqn:X.
    pose proof (server_io_log Ts fuel s1 a s2 lx X) as (_ & _ & A & _).
    destruct (is_dead (x_f s2)).
    { apply pair_equal_spec in E as [_ <-]. rewrite A in H. contradiction. }
    destruct (returned lx) as [r0|].
    2:{ apply pair_equal_spec in E as [_ <-]. rewrite A in H. contradiction. }
    destruct (xstep Tc (server_machine K) fuel c1 ACancel) as [c2 l2] eqn:C.
    apply cancel_step in C as (_ & _ & _ & C). apply blank_client_cancel in C as (_ & _ & B & _).
    destruct (handle_server_event K r0) as [| |o u] eqn:HE.
    + apply pair_equal_spec in E as [_ <-]. rewrite !calls_to_client_app, A, B in H. contradiction.
    + apply pair_equal_spec in E as [_ <-]. rewrite !calls_to_client_app, A, B in H. contradiction.
    + assert (Q : In (SaEnqueue r) [o]).
      { destruct (m_call (server_machine K) (x_m c2) o) as [[m e]|].
        - destruct (u && s_call_failed e); apply pair_equal_spec in E as [_ <-];
            rewrite !calls_to_client_app, A, B in H; destruct H as [H|H]; try contradiction;
            injection H as H _; now left.
        - apply pair_equal_spec in E as [_ <-]. rewrite !calls_to_client_app, A, B in H. contradiction. }
      destruct Q as [->|[]]. destruct r0 as [e| | | | |]; try discriminate.
      cbn in HE. destruct e; try discriminate; injection HE as <- _.
      * unfold modified_status. destruct (status_code _) as [[]|]; constructor.
      * eapply response_reduced_supported, filter_data_reduced.
      * eapply response_reduced_supported, filter_status_reduced.
      * eapply response_reduced_supported, filter_continuation_reduced.
  - unfold client_side in E. destruct (xstep Tc (server_machine K) fuel c1 (io_act _ a)) as [c2 lx] eqn:X.
    pose proof (client_io_log Tc fuel c1 a c2 lx X) as (_ & _ & A & _).
    exfalso. destruct (is_dead (x_f c2)).
    { apply pair_equal_spec in E as [_ <-]. rewrite A in H. contradiction. }
    destruct (returned lx) as [r0|].
    2:{ apply pair_equal_spec in E as [_ <-]. rewrite A in H. contradiction. }
    destruct (xstep Ts (client_machine K) fuel s1 ACancel) as [s2 l2] eqn:C.
    apply cancel_step in C as (_ & _ & _ & C). apply blank_server_cancel in C as (_ & _ & B & _).
    destruct (handle_client_event K r0) as [| |o u] eqn:HE.
    + apply pair_equal_spec in E as [_ <-]. rewrite !calls_to_client_app, A, B in H. contradiction.
    + apply pair_equal_spec in E as [_ <-]. rewrite !calls_to_client_app, A, B in H. contradiction.
    + destruct (m_call (client_machine K) (x_m s2) o) as [[m e]|].
      * destruct (u && c_call_failed e); apply pair_equal_spec in E as [_ <-];
          rewrite !calls_to_client_app, A, B in H; contradiction.
      * apply pair_equal_spec in E as [_ <-]. rewrite !calls_to_client_app, A, B in H. contradiction.
Qed.

Definition all_supported (l : list (plog K)) : Prop :=
  forall r x, In (SaEnqueue r, x) (calls_to_client l) -> Forall supported (response_caps r).

Lemma enqueued_supported : forall acts p l, prun K Tc Ts fuel gs start acts = (p, l) ->
  forall r x, In (SaEnqueue r, x) (calls_to_client l) -> Forall supported (response_caps r).
Proof.
  intros acts p l E. change (all_supported ([] ++ l)).
  refine (prun_ind K Tc Ts fuel gs (fun _ l => all_supported l) _ acts _ [] p l _ E).
  - intros p1 l1 a p2 l2 H S r x I. rewrite calls_to_client_app in I. apply in_app_or in I as [I|I].
    + eapply H; eauto.
    + eapply enqueued_step; eauto.
  - intros r x [].
Qed.

(** Events of the client come from the log of its stream. *)
Lemma client_events_ret : forall (l : list (plog K)) e, In e (client_events l) ->
  In (inl (e : m_ev (server_machine K))) (ret_outcomes (at_client l)).
Proof.
  induction l as [|[x|x| |] l IH]; intros e H; cbn in *; auto; try contradiction.
  destruct x as [| | | | | | |[]| | |]; cbn in *; auto. destruct H as [H|H]; [left; congruence|auto].
Qed.

Lemma next_outcomes_in : forall M (l : list (xlog M)) e, In (inl e) (next_outcomes l) -> In (XNext (MEvent e)) l.
Proof.
  induction l as [|x l IH]; intros e H; [contradiction|].
  destruct x as [| |[]| | | | | | | |]; cbn in *; auto.
  - destruct H as [H|H]; [left; congruence|auto].
  - destruct H as [H|H]; [discriminate|auto].
Qed.

Lemma call_entries_in : forall M (l : list (xlog M)) r, In (XNext r) l -> In (XNext r) (call_entries l).
Proof.
  induction l as [|x l IH]; intros r H; [contradiction|]. destruct H as [->|H]; [now left|].
  destruct x; cbn; auto.
Qed.

Lemma greeting_sent_supported : forall acts p l, prun K Tc Ts fuel gs start acts = (p, l) ->
  forall g, In (SeGreetingSent g) (client_events l) -> Forall supported (code_caps (g_code g)).
Proof.
  intros acts p l E g H. apply client_events_ret in H.
  apply proxy_streams in E as (_ & [E|(g1 & g2 & es & acts' & x & _ & G & E)]).
  { rewrite E in H. contradiction. }
  rewrite (outcomes_returned _ _ _ _ _ _ _ E) in H. apply next_outcomes_in, call_entries_in in H.
  apply server_in_stream in E as (ls & E & V). rewrite <- V in H. apply in_flat_map in H as (e & H1 & H2).
  assert (E1 : e = SlNext (IEvent (SeGreetingSent g))).
  { destruct e; cbn in H2; try (destruct H2 as [H2|[]]; discriminate); try contradiction.
    destruct r; cbn in H2; try contradiction; destruct H2 as [H2|[]]; try discriminate. congruence. }
  subst e. apply in_split in H1 as (l1 & l2 & ->).
  destruct (s_sent_before _ _ _ _ _ _ _ E l1 _ l2 eq_refl eq_refl) as (l0 & lm & m & _ & _ & N & S).
  destruct m as [gm|h r]; [|destruct h; discriminate]. cbn in S. injection S as ->.
  apply nth_error_In in N. unfold scheduled in N. destruct N as [N|N].
  - injection N as <-. eapply greeting_reduced_supported; eauto.
  - apply in_flat_map in N as (e & _ & N). exfalso.
    destruct e; cbn in N; try contradiction; repeat match type of N with context [match ?x with _ => _ end] => destruct x; cbn in N end;
      try contradiction; try (destruct N as [N|[]]; discriminate);
      unfold when_sync in N; destruct (cl_mode _); cbn in N; try contradiction; destruct N as [N|[]]; discriminate.
Qed.

End Statements.

Lemma prun_app : forall K Tc Ts fuel gs acts1 p acts2,
  prun K Tc Ts fuel gs p (acts1 ++ acts2) =
  (let '(p1, l1) := prun K Tc Ts fuel gs p acts1 in
   let '(p2, l2) := prun K Tc Ts fuel gs p1 acts2 in (p2, l1 ++ l2)).
Proof.
  intros K Tc Ts fuel gs acts1. induction acts1 as [|a acts1 IH]; intros p acts2; cbn [app prun].
  - destruct (prun K Tc Ts fuel gs p acts2). reflexivity.
  - destruct (pstep K Tc Ts fuel gs p a) as [p1 l1]. rewrite IH.
    destruct (prun K Tc Ts fuel gs p1 acts1) as [p2 l2].
    destruct (prun K Tc Ts fuel gs p2 acts2) as [p3 l3]. now rewrite app_assoc.
Qed.

Lemma prun_ended : forall K Tc Ts fuel gs why acts,
  prun K Tc Ts fuel gs (PsEnd why) acts = (PsEnd why, []).
Proof.
  intros K Tc Ts fuel gs why acts. induction acts as [|[[] a] acts IH]; cbn; [reflexivity| |]; now rewrite IH.
Qed.

Lemma prun_end : forall K Tc Ts fuel gs p acts1 acts2,
  (exists why, fst (prun K Tc Ts fuel gs p acts1) = PsEnd why) ->
  prun K Tc Ts fuel gs p (acts1 ++ acts2) = prun K Tc Ts fuel gs p acts1.
Proof.
  intros K Tc Ts fuel gs p acts1 acts2 [why H]. rewrite prun_app.
  destruct (prun K Tc Ts fuel gs p acts1) as [p1 l1]. cbn in H. subst p1.
  now rewrite prun_ended, app_nil_r.
Qed.
