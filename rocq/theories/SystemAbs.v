(** The composed system as a transition system: the steps are those of the abstract client
    and server, and deliveries. *)
From Coq Require Import List NArith Bool PeanoNat Lia.
From Verif Require Import Base Types Codec Handle Receive ServerSend ClientSend Client Server
  SpecFraming SpecClient SpecServer ReceiveProofs ClientRecv ServerRecv ClientAbs ServerAbs
  ServerInv System.
From Verif Require ClientInv.
Import ListNotations.

Record zstate : Type := ZState {
  z_a : astate;
  z_x : xstate;
  z_toS : bytes;
  z_toC : bytes
}.

Lemma clogs_app : forall a b, clogs (a ++ b) = clogs a ++ clogs b.
Proof. induction a as [|e a IH]; intro b; [reflexivity|]. destruct e; cbn; now rewrite ?IH. Qed.
Lemma slogs_app : forall a b, slogs (a ++ b) = slogs a ++ slogs b.
Proof. induction a as [|e a IH]; intro b; [reflexivity|]. destruct e; cbn; now rewrite ?IH. Qed.
Lemma clogs_YC : forall l, clogs (map YC l) = l.
Proof. induction l as [|e l IH]; cbn; now rewrite ?IH. Qed.
Lemma slogs_YC : forall l, slogs (map YC l) = [].
Proof. induction l as [|e l IH]; cbn; now rewrite ?IH. Qed.
Lemma clogs_YS : forall l, clogs (map YS l) = [].
Proof. induction l as [|e l IH]; cbn; now rewrite ?IH. Qed.
Lemma slogs_YS : forall l, slogs (map YS l) = l.
Proof. induction l as [|e l IH]; cbn; now rewrite ?IH. Qed.

Lemma cwritten_outputs : forall l, cwritten l = outputs l.
Proof.
  induction l as [|e l IH]; [reflexivity|].
  destruct e as [| | | | |r|]; cbn; rewrite ?IH; auto.
Qed.
Lemma swritten_outputs : forall l, swritten l = soutputs l.
Proof.
  unfold soutputs. induction l as [|e l IH]; [reflexivity|].
  destruct e as [| | | | | | |r|]; cbn; rewrite ?IH; auto; now destruct r.
Qed.
Lemma soutputs_app : forall a b, soutputs (a ++ b) = soutputs a ++ soutputs b.
Proof. intros. unfold soutputs. now rewrite souts_app, concat_app. Qed.

Section Abs.
  Variable K : Codecs.
  Variable relaxed : bool.
  Variable o : soptions.

  Notation astep := (astep K relaxed).
  Notation asteps := (asteps K relaxed).
  Notation xstep := (xstep K o).
  Notation xsteps := (xsteps K o).

  Inductive zstep : zstate -> list ylog -> zstate -> Prop :=
  | z_client : forall a a' x ts tc l,
      astep a l a' -> inputs l = [] ->
      zstep (ZState a x ts tc) (map YC l) (ZState a' x (ts ++ outputs l) tc)
  | z_server : forall a x x' ts tc l,
      xstep x l x' -> sinputs l = [] ->
      zstep (ZState a x ts tc) (map YS l) (ZState a x' ts (tc ++ soutputs l))
  | z_to_server : forall a x ts tc d,
      zstep (ZState a x (d ++ ts) tc) [YS (SlInput d)]
        (ZState a (XState (x_gen x) (x_send x) (x_mode x) (x_pre x) (x_lits x) (x_need x)
                     (x_rest x ++ d)) ts tc)
  | z_to_client : forall a x ts tc d,
      zstep (ZState a x ts (d ++ tc)) [YC (ClInput d)]
        (ZState (a_set_buf a (a_buf a ++ d)) x ts tc).

  Inductive zsteps : zstate -> list ylog -> zstate -> Prop :=
  | zs_nil : forall z, zsteps z [] z
  | zs_snoc : forall z l z1 l1 z2, zsteps z l z1 -> zstep z1 l1 z2 -> zsteps z (l ++ l1) z2.

  Lemma zsteps_one : forall z l z', zstep z l z' -> zsteps z l z'.
  Proof. intros. change l with ([] ++ l). econstructor; [constructor|assumption]. Qed.

  Lemma zsteps_trans : forall z l1 z1 l2 z2,
    zsteps z l1 z1 -> zsteps z1 l2 z2 -> zsteps z (l1 ++ l2) z2.
  Proof.
    intros z l1 z1 l2 z2 H1 H2. induction H2 as [z1|z1 l z3 l3 z4 H2 IH H3].
    - now rewrite app_nil_r.
    - rewrite app_assoc. econstructor; eauto.
  Qed.

  Lemma zsteps_client : forall a l a' x ts tc,
    asteps a l a' -> inputs l = [] ->
    zsteps (ZState a x ts tc) (map YC l) (ZState a' x (ts ++ outputs l) tc).
  Proof.
    intros a l a' x ts tc H. induction H as [a|a l a1 l1 a2 H IH H1]; intro Hi.
    - cbn. rewrite app_nil_r. constructor.
    - rewrite ClientInv.inputs_app in Hi. apply app_eq_nil in Hi as [Hi1 Hi2].
      rewrite map_app, ClientInv.outputs_app, app_assoc. econstructor; [now apply IH|].
      now constructor.
  Qed.

  Lemma zsteps_server : forall a x l x' ts tc,
    xsteps x l x' -> sinputs l = [] ->
    zsteps (ZState a x ts tc) (map YS l) (ZState a x' ts (tc ++ soutputs l)).
  Proof.
    intros a x l x' ts tc H. induction H as [x|x l x1 l1 x2 H IH H1]; intro Hi.
    - cbn. rewrite app_nil_r. constructor.
    - rewrite sinputs_app in Hi. apply app_eq_nil in Hi as [Hi1 Hi2].
      rewrite map_app, soutputs_app, app_assoc. econstructor; [now apply IH|].
      now constructor.
  Qed.

  (** *** Projections *)

  Lemma zsteps_asteps : forall z l z', zsteps z l z' -> asteps (z_a z) (clogs l) (z_a z').
  Proof.
    intros z l z' H. induction H as [z|z l z1 l1 z2 H IH H1]; [constructor|].
    rewrite clogs_app. destruct H1; cbn [z_a] in *.
    - rewrite clogs_YC. econstructor; eauto.
    - now rewrite clogs_YS, app_nil_r.
    - cbn. now rewrite app_nil_r.
    - cbn. econstructor; [exact IH|]. constructor.
  Qed.

  Lemma zsteps_xsteps : forall z l z', zsteps z l z' -> xsteps (z_x z) (slogs l) (z_x z').
  Proof.
    intros z l z' H. induction H as [z|z l z1 l1 z2 H IH H1]; [constructor|].
    rewrite slogs_app. destruct H1; cbn [z_x] in *.
    - now rewrite slogs_YC, app_nil_r.
    - rewrite slogs_YS. econstructor; eauto.
    - cbn. econstructor; [exact IH|]. eapply (x_call _ _ _ (SopEnqueueInput d)). reflexivity.
    - cbn. now rewrite app_nil_r.
  Qed.

  (** *** Simulation *)

  Definition yrel (y : sys) (z : zstate) : Prop :=
    crel K relaxed (y_client y) (z_a z) /\ srel K o (y_server y) (z_x z) /\
    y_to_server y = z_toS z /\ y_to_client y = z_toC z.

  Lemma client_step_inputs : forall c p c' l,
    client_step K c p = (Some c', l) -> is_cinput p = false -> inputs l = [].
  Proof.
    intros c p c' l H Hp. destruct p as [cmd|x|d| |]; [..|]; cbn -[client_next] in H; try discriminate.
    - now injection H as <- <-.
    - destruct (client_set_authenticate_data K c d) as [[]|]; [|discriminate].
      now injection H as <- <-.
    - destruct (client_set_idle_done K c) as [[]|]; [|discriminate]. now injection H as <- <-.
    - destruct (client_next K c) as [[c1 g] r]. destruct (c_is_panic r); [discriminate|].
      injection H as <- <-. clear. induction g as [|m g IH]; cbn; auto.
  Qed.

  Lemma server_step_inputs : forall s p s' l,
    server_step K s p = (Some s', l) -> is_sinput p = false -> sinputs l = [].
  Proof.
    intros s p s' l H Hp. destruct p; cbn -[server_next] in H; try discriminate;
      try (repeat match type of H with
           | context [match ?X with _ => _ end] => destruct X
           end; try discriminate; injection H as <- <-; reflexivity).
    destruct (server_next K s) as [[s1 g] r]. destruct (s_is_panic r); [discriminate|].
    injection H as <- <-. clear. induction g as [|m g IH]; cbn; auto.
  Qed.

  Lemma sys_step_sim : forall y z p y' l,
    yrel y z -> sys_step K y p = (Some y', l) ->
    exists z', zsteps z l z' /\ yrel y' z'.
  Proof.
    intros y z p y' l (Hc & Hs & Hts & Htc) H. destruct z as [a x ts tc]. cbn in *. subst ts tc.
    destruct p as [p|p|n|n]; cbn -[client_step server_step] in H.
    - destruct (is_cinput p) eqn:Ei.
      + injection H as <- <-. eexists. split; [constructor|]. unfold yrel; cbn [y_client y_server y_to_server y_to_client z_a z_x z_toS z_toC]; auto.
      + destruct (client_step K (y_client y) p) as [[c|] lc] eqn:E; [|discriminate].
        injection H as <- <-.
        destruct (client_step_sim _ _ _ _ _ _ _ Hc E) as (a' & St & R).
        eexists. split; [eapply zsteps_client; [exact St|now eapply client_step_inputs; eauto]|].
        rewrite cwritten_outputs. unfold yrel; cbn [y_client y_server y_to_server y_to_client z_a z_x z_toS z_toC]; auto.
    - destruct (is_sinput p) eqn:Ei.
      + injection H as <- <-. eexists. split; [constructor|]. unfold yrel; cbn [y_client y_server y_to_server y_to_client z_a z_x z_toS z_toC]; auto.
      + destruct (server_step K (y_server y) p) as [[c|] lc] eqn:E; [|discriminate].
        injection H as <- <-.
        destruct (server_step_sim _ _ _ _ _ _ _ Hs E) as (a' & St & R).
        eexists. split; [eapply zsteps_server; [exact St|now eapply server_step_inputs; eauto]|].
        rewrite swritten_outputs. unfold yrel; cbn [y_client y_server y_to_server y_to_client z_a z_x z_toS z_toC]; auto.
    - destruct (server_step K (y_server y) _) as [[c|] lc] eqn:E; [|discriminate].
      injection H as <- <-.
      destruct (server_call_sim K o _ _ (SopEnqueueInput (firstn n (y_to_server y))) _ _ Hs ltac:(discriminate) E) as (a' & e & -> & Ex & R).
      cbn in Ex. injection Ex as <- <-.
      eexists. split.
      + apply zsteps_one. rewrite <- (firstn_skipn n (y_to_server y)) at 1. apply z_to_server.
      + unfold yrel; cbn [y_client y_server y_to_server y_to_client z_a z_x z_toS z_toC]; auto.
    - destruct (client_step K (y_client y) _) as [[c|] lc] eqn:E; [|discriminate].
      injection H as <- <-.
      assert (El : lc = [ClInput (firstn n (y_to_client y))]).
      { cbn in E. destruct (client_enqueue_input _ _); [|discriminate]. now injection E as <- <-. }
      subst lc.
      exists (ZState (a_set_buf a (a_buf a ++ firstn n (y_to_client y))) x (y_to_server y)
                (skipn n (y_to_client y))). split.
      + apply zsteps_one. rewrite <- (firstn_skipn n (y_to_client y)) at 1. apply z_to_client.
      + split; [|cbn; auto]. cbn [z_a].
        destruct Hc as (Hg & Hsd & Hr). unfold client_step, client_enqueue_input in E.
        destruct (c_recv (y_client y)) as [s|s|] eqn:Ec; [| |discriminate]; injection E as <-;
          destruct Hr as (Hgr & Hb & Hread);
          unfold crel; cbn; repeat split; auto; try congruence;
          destruct Hread as (H1 & H2 & pp & u & ls & H3 & H4); auto;
          exists pp, (u ++ firstn n (y_to_client y)), ls; split; auto;
          now apply rinv_add.
  Qed.

  Definition znew (gc gs : hgen) (gr : greeting) : zstate :=
    ZState (astate_new gc) (xnew gs gr) [] [].

  Lemma yrel_new : forall gc gs gr, yrel (sys_new gc gs relaxed o gr) (znew gc gs gr).
  Proof.
    intros. split; [apply crel_new|]. split; [apply srel_new|]. auto.
  Qed.

  Lemma sys_run_sim : forall acts y z y' l,
    yrel y z -> sys_run K y acts = (Some y', l) -> exists z', zsteps z l z' /\ yrel y' z'.
  Proof.
    induction acts as [|p acts IH]; intros y z y' l Hrel H; cbn in H.
    - injection H as <- <-. exists z. split; [constructor|assumption].
    - destruct (sys_step K y p) as [[y1|] l1] eqn:E; [|discriminate].
      destruct (sys_run K y1 acts) as [y2 l2] eqn:E2. injection H as -> <-.
      destruct (sys_step_sim _ _ _ _ _ Hrel E) as (z1 & S1 & R1).
      destruct (IH y1 z1 y' l2 R1 E2) as (z2 & S2 & R2).
      exists z2. split; [eapply zsteps_trans; eauto|assumption].
  Qed.

  Lemma sys_run_new : forall gc gs gr acts y l,
    sys_run K (sys_new gc gs relaxed o gr) acts = (Some y, l) ->
    exists z, zsteps (znew gc gs gr) l z /\ yrel y z.
  Proof. intros. eapply sys_run_sim; eauto. apply yrel_new. Qed.

  (** What is known when both sides ask for more input. *)
  Lemma client_waits : forall c a c',
    crel K relaxed c a -> client_next K c = (c', [], INeedMore) ->
    exists a', asteps a [ClNext INeedMore] a' /\
      asettled K a' /\ a_no_message K relaxed a' /\ crel K relaxed c' a'.
  Proof.
    intros c a c' R E.
    destruct (client_next_sim K relaxed _ _ _ _ _ R E) as (a' & N & _ & _ & R').
    specialize (R' ltac:(discriminate)).
    inversion N as [a0 r a1 H| | |]; subst.
    exists a'. split; [exact (anext_steps K relaxed _ _ _ _ N ltac:(discriminate))|].
    inversion H; subst; auto.
  Qed.

  Lemma server_waits : forall s x s',
    srel K o s x -> server_next K s = (s', [], INeedMore) ->
    exists x', xsteps x [SlNext INeedMore] x' /\ srel K o s' x' /\
      x_mode x' = x_mode x /\ x_pre x' = x_pre x /\ x_lits x' = x_lits x /\
      x_need x' = x_need x /\ x_rest x' = x_rest x /\
      quiet (x_send x) = Some (x_send x') /\ ss_current (x_send x') = None /\
      (x_mode x = ExIdleAccept \/
       (no_line (NfLiteral (x_need x)) (x_rest x) /\
        (N.of_nat (length (x_buf x)) < so_max_command_size o)%N)).
  Proof.
    intros s x s' R E.
    destruct (server_next_sim K o _ _ _ _ _ R E) as (x' & N & _ & _ & R').
    exists x'. split; [exact (xnext_steps K o _ _ _ _ N ltac:(discriminate))|].
    split; [apply R'; discriminate|].
    inversion N as [x0 g r x1 H| |]; subst. cbn in H.
    inversion H as [? p ? e C| | |? s1 Q C| | |]; subst.
    - destruct p; cbn in C; try discriminate;
        repeat match type of C with
        | context [x_mode ?a] => destruct (x_mode a)
        | context [xenqueue ?a ?r ?m] => destruct (xenqueue a r m)
        end; discriminate.
    - cbn. repeat split; auto.
      unfold quiet in Q. destruct (ss_current (x_send x)) as [[g|[h|] r]|] eqn:Ec; try discriminate.
      + now injection Q as <-.
      + destruct (ss_queue (x_send x)); [|discriminate]. now injection Q as <-.
  Qed.
End Abs.
