(** Example clients connected to example servers. *)
From Coq Require Import List NArith Bool PeanoNat Lia.
From Coq Require String.
Import (notations) String.
From Verif Require Import Base Types Codec Handle Receive ClientSend Client ServerSend Server
  SpecFraming SpecClient SpecServer ClientInv ClientThms ServerInv ServerThms System SpecSystem SpecSystemLive
  SystemLog Stream StreamMachine SpecStream StreamProofs StreamState Net SpecNet NetProofs NetSystem NetApp NetRest NetThms
  NetLive NetStall SpecViews NetViews Apps SpecApps AppsProofs AppsClient AppsServer AppsSays.
Import ListNotations.
Local Open Scope list_scope.

Section Steps.
Context {M : machine} (P : program M).
Lemma psteps_prefix : forall l2 l1 st, psteps P (l1 ++ l2) st -> exists st1, psteps P l1 st1.
Proof.
  induction l2 as [|e l2 IH] using rev_ind; intros l1 st H; [rewrite app_nil_r in H; eauto|].
  rewrite app_assoc in H. inversion H as [E|l st0 e0 st' H0 H1 E].
  - symmetry in E. apply app_eq_nil in E as [_ E]. discriminate.
  - apply app_inj_tail in E as [-> ->]. eauto.
Qed.
End Steps.

Lemma xstep_calls : forall T M fuel (x : xstate T M) a x' l, xstep T M fuel x a = (x', l) ->
  (forall p r, ~ In (XCall p r) l) \/ exists p r, l = [XCall p r].
Proof.
  intros T M fuel x a x' l E. apply xstep_log in E.
  assert (It : forall k, Forall (iter_entry M) k -> forall p r, ~ In (@XCall M p r) k).
  { intros k F p r Hin. rewrite Forall_forall in F. now apply F in Hin. }
  destruct E as [_|k _ F _ _ _|h k s1 S H|e H _ _|n _ _ _|r _ _|e H _].
  - left. intros p r [].
  - left. intros p r [Hh|Hh]; [discriminate|now apply It in Hh].
  - left. intros p r [Hh|Hin]; [|apply sync_entries in S; now apply It in Hin].
    destruct H as [(-> & _)|[(b & _ & -> & _)|(_ & -> & _)]]; discriminate.
  - left. intros p r [Hh|[Hh|[]]]; [|discriminate]. destruct H as [->| ->]; discriminate.
  - left. intros p r [Hh|[]]; discriminate.
  - left. intros p r0 [Hh|[]]; discriminate.
  - destruct H as [->|[->|(p & r & ->)]]; [left; intros p r [Hh|[]]; discriminate..|right; eauto].
Qed.

Section Pair.
Context (K : Codecs) (relaxed : bool) (o : soptions) (gc gs : hgen) (gr : greeting) (T1 T2 : tls).
Notation CM := (client_machine K).
Notation SM := (server_machine K).
Notation talk := (@talk K relaxed o gc gs gr T1 T2).

Lemma step_calls : forall fuel (z : net T1 T2 CM SM) a z' l, net_step T1 T2 CM SM fuel z a = (z', l) ->
  no_calls K l \/ (exists p r, l = [NL (@XCall CM p r)]) \/ (exists p r, l = [NR (@XCall SM p r)]).
Proof.
  intros fuel z a z' l E. apply step_moved in E as [_ ->|b k -> S _ _ _|b k -> S _ _ _].
  - left. split; intros p r [].
  - apply xstep_calls in S as [S|(p & r & ->)]; [left|right; left; now exists p, r].
    split; intros p r Hin; apply in_map_iff in Hin as (e & Ee & Hin); [|discriminate].
    injection Ee as ->. now apply S in Hin.
  - apply xstep_calls in S as [S|(p & r & ->)]; [left|right; right; now exists p, r].
    split; intros p r Hin; apply in_map_iff in Hin as (e & Ee & Hin); [discriminate|].
    injection Ee as ->. now apply S in Hin.
Qed.

(** Runs, action by action. *)
Lemma talk_steps : forall (Q : list (nlog CM SM) -> Prop), Q [] ->
  (forall z L z' l, talk z L -> Q L -> talk z' (L ++ l) ->
     no_calls K l \/ (exists p r, l = [NL (@XCall CM p r)]) \/ (exists p r, l = [NR (@XCall SM p r)]) ->
     Q (L ++ l)) ->
  forall z L, talk z L -> Q L.
Proof.
  intros Q Q0 QS z L [fuel acts E|fuel acts t1 t2 peer1 R1 dec1 peer2 R2 dec2 Lk1 Lk2 E N1 N2 D1 D2].
  - revert z L E. induction acts as [|a acts IH] using rev_ind; intros z L E.
    + cbn in E. injection E as _ <-. exact Q0.
    + pose proof (talk_plain relaxed o gc gs gr T1 T2 _ _ fuel _ E) as Tk.
      rewrite net_run_app in E. destruct (net_run _ _ _ _ _ _ acts) as [z1 l1] eqn:E1. cbn [net_run] in E.
      destruct (net_step T1 T2 CM SM fuel z1 a) as [z2 l2] eqn:E2. injection E as <- <-. rewrite app_nil_r in *.
      eapply QS; [exact (talk_plain relaxed o gc gs gr T1 T2 _ _ fuel _ E1)|now eapply IH|exact Tk|].
      eapply step_calls; exact E2.
  - assert (W : well T1 T2 CM SM z L) by (repeat split; auto; try apply N1; apply N2).
    clear N1 N2 D1 D2. revert z L E W. induction acts as [|a acts IH] using rev_ind; intros z L E W.
    + cbn in E. injection E as _ <-. exact Q0.
    + assert (Tk : talk z L).
      { destruct W as (N1 & N2 & D1 & D2). eapply talk_tls; eauto. }
      rewrite net_run_app in E. destruct (net_run _ _ _ _ _ _ acts) as [z1 l1] eqn:E1. cbn [net_run] in E.
      destruct (net_step T1 T2 CM SM fuel z1 a) as [z2 l2] eqn:E2. injection E as <- <-. rewrite app_nil_r in *.
      pose proof (well_before _ _ _ _ _ _ _ _ _ _ E2 W) as W1.
      assert (Tk1 : talk z1 l1).
      { pose proof W1 as (N1 & N2 & D1 & D2). eapply talk_tls; eauto. }
      eapply QS; [exact Tk1|eapply IH; eauto|exact Tk|]. eapply step_calls; exact E2.
Qed.

Lemma talk_client : forall z L, talk z L -> exists fuel s acts x,
  xrun T1 CM fuel (@XState T1 CM s (client_new gc relaxed) FIdle) acts = (x, lefts L).
Proof.
  intros z L [fuel acts E|fuel acts t1 t2 peer1 R1 dec1 peer2 R2 dec2 Lk1 Lk2 E N1 N2 D1 D2];
    destruct (net_projects _ _ _ _ _ _ _ _ _ _ _ _ E) as [(a1 & H1) _]; eauto.
Qed.
Lemma talk_server : forall z L, talk z L -> exists fuel s acts x,
  xrun T2 SM fuel (@XState T2 SM s (server_new gs o gr) FIdle) acts = (x, rights L).
Proof.
  intros z L [fuel acts E|fuel acts t1 t2 peer1 R1 dec1 peer2 R2 dec2 Lk1 Lk2 E N1 N2 D1 D2];
    destruct (net_projects _ _ _ _ _ _ _ _ _ _ _ _ E) as [_ (a1 & H1)]; eauto.
Qed.

(** ** The assumptions of C53-C56 hold for connected programs *)
Section Programs.
Context (PC : program CM) (PS : program SM) (cmd : command) (texts : list response) (data : list auth_data).
Context (Ag : agreed K relaxed o gr cmd texts data).

(** What the client program may do. *)
Definition client_fine (A : list clog) : Prop :=
  (enqueued A = [] \/ exists h, enqueued A = [(h, cmd)]) /\
  (forall d h, In (ClSetAuth d (inl h)) A -> In d data) /\
  (forall h, In (ClSetDone (Some h)) A -> cbody cmd = BIdle).

Definition pair (L : list (nlog CM SM)) : Prop :=
  (exists st, psteps PC (lefts L) st) /\ (exists st, psteps PS (rights L) st).
Lemma pair_before : forall L l, pair (L ++ l) -> pair L.
Proof.
  intros L l [(a & H1) (b & H2)]. rewrite lefts_app in H1. rewrite rights_app in H2.
  split; eapply psteps_prefix; eauto.
Qed.

Hypothesis fine : forall z L, talk z L -> pair L -> client_fine (clogs (app_log L)).
Hypothesis nice : forall z L, talk z L -> pair L -> polite (slogs (app_log L)).
(** What the server program says next, if it has received no other command. *)
Hypothesis says : forall z L p r, talk z (L ++ [NR (@XCall SM p r)]) -> pair (L ++ [NR (@XCall SM p r)]) ->
  (forall c, In (IEvent (command_event c)) (sreports (slogs (app_log L))) -> c = cmd) ->
  forall x, In x (accepted r) -> In x texts.

Lemma scheduled_given : forall z L m, talk z L -> In m (scheduled o gr (slogs (app_log L))) ->
  m = SmGreeting gr \/ exists h x, m = SmResponse (Some h) x /\ In x (given (rights L)).
Proof.
  intros z L m Tk [<-|Hin]; [now left|right]. apply talk_server in Tk as (fuel & s & acts & x & R).
  apply s_stream_reached in R as [_ Ty]. rewrite slogs_app_log in Hin.
  rewrite <- given_app_log. apply in_flat_map in Hin as (e & He & Hm).
  exists (match m with SmResponse (Some h) _ => h | _ => Handle 0 0 end),
    (match m with SmResponse _ x => x | _ => RCcr (CcrBasic None []) end).
  assert (Hx : In (match m with SmResponse _ x => x | _ => RCcr (CcrBasic None []) end) (accepted e) /\
    m = SmResponse (Some (match m with SmResponse (Some h) _ => h | _ => Handle 0 0 end))
      (match m with SmResponse _ x => x | _ => RCcr (CcrBasic None []) end)).
  { apply in_flat_map in He as (y & Hy & He). destruct y as [p r| | | | | | |[] | | |]; cbn in He; try contradiction.
    - destruct He as [<-|[]]. apply Ty in Hy. destruct p, r; cbn in Hy; try contradiction; subst;
        try (destruct r); try contradiction; cbn in Hm; try contradiction;
        destruct Hm as [<-|[]]; cbn; auto.
    - destruct He as [<-|[]]. destruct Hm.
    - destruct He as [<-|[]]. destruct Hm. }
  split; [apply Hx|]. apply in_flat_map. exists e. split; [exact He|apply Hx].
Qed.

Lemma given_orderly : forall z L, talk z L -> pair L -> (forall x, In x (given (rights L)) -> In x texts) ->
  orderly K relaxed o gr (app_log L) /\ own_roundtrips K relaxed o (app_log L).
Proof.
  intros z L Tk Pr Hg. destruct (fine z L Tk Pr) as (F1 & F2 & F3). split.
  - split.
    + intros m Hm. apply (scheduled_given z L m Tk) in Hm as [->|(h & x & -> & Hx)]; [exact (ag_greeting _ _ _ _ _ _ _ Ag)|].
      apply Hg in Hx. exact (ag_texts _ _ _ _ _ _ _ Ag _ Hx).
    + intros h c Hin. destruct F1 as [E|(h0 & E)]; rewrite E in Hin; [destruct Hin|].
      destruct Hin as [Hin|[]]. injection Hin as _ <-. exact (ag_cmd _ _ _ _ _ _ _ Ag).
    + intros d h Hin. apply (ag_data _ _ _ _ _ _ _ Ag). eauto.
    + intros h Hin. apply (ag_done _ _ _ _ _ _ _ Ag). eauto.
    + exact (ag_size _ _ _ _ _ _ _ Ag).
    + destruct F1 as [E|(h0 & E)]; rewrite E; cbn; repeat constructor; auto.
    + eapply nice; eauto.
  - split; [exact (ag_accept _ _ _ _ _ _ _ Ag)|]. intros h c Hin. destruct F1 as [E|(h0 & E)]; rewrite E in Hin; [destruct Hin|].
    destruct Hin as [Hin|[]]. injection Hin as _ <-. exact (ag_reject _ _ _ _ _ _ _ Ag).
Qed.

Lemma pair_given : forall z L, talk z L -> pair L -> forall x, In x (given (rights L)) -> In x texts.
Proof.
  apply (talk_steps (fun L => pair L -> forall x, In x (given (rights L)) -> In x texts)).
  - intros _ x [].
  - intros z L z' l Tk IH Tk' C Pr x Hx. pose proof (pair_before _ _ Pr) as Pr1. specialize (IH Pr1).
    rewrite rights_app in Hx. rewrite <- given_app_log, !flat_map_app, !given_app_log in Hx. apply in_app_or in Hx as [Hx|Hx]; [auto|].
    destruct C as [[_ C]|[(p & r & ->)|(p & r & ->)]].
    + exfalso. clear -C Hx. induction l as [|e l IHl]; [destruct Hx|].
      destruct e as [e|e]; cbn in Hx; [apply IHl; [|exact Hx]; intros p r Hin; apply (C p r); now right|].
      destruct e; try (apply IHl; [|exact Hx]; intros p0 r0 Hin; apply (C p0 r0); now right).
      apply (C o r). now left.
    + destruct Hx.
    + cbn in Hx. rewrite app_nil_r in Hx. eapply says; [exact Tk'|exact Pr| |exact Hx].
      intros c Hc. destruct (given_orderly z L Tk Pr1 IH) as [Or Ow].
      destruct (net_smuggling K relaxed o gc gs gr T1 T2 z L Tk Or Ow c Hc) as (h & Hin).
      destruct (fine z L Tk Pr1) as (F1 & _). destruct F1 as [E|(h0 & E)]; rewrite E in Hin; [destruct Hin|].
      destruct Hin as [Hin|[]]. now injection Hin as _ <-.
Qed.

Lemma pair_orderly : forall z L, talk z L -> pair L ->
  orderly K relaxed o gr (app_log L) /\ own_roundtrips K relaxed o (app_log L).
Proof. intros z L Tk Pr. eapply given_orderly; eauto. eapply pair_given; eauto. Qed.
End Programs.
End Pair.
