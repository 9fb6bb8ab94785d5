(** Handles of different conversations of the program around the proxy differ. *)
From Coq Require Import List NArith Bool PeanoNat Lia.
From Verif Require Import Base Types Codec Handle Client Server SpecClient SpecServer
  ClientAbs ServerAbs ClientInv ClientThms ServerThms HandleRuns
  Stream StreamMachine StreamState ProxyUtil Proxy SpecProxy ProxyRuns AppsProofs
  Service SpecService ServiceProofs ServiceHandles.
Import ListNotations.

Lemma client_gen : forall K rl g ops c l, ran K rl g ops c l ->
  forall h cm, In (ClEnqueue cm h) l -> h_gen h = hg_id g.
Proof.
  intros K rl g ops c l Hr h cm Hi. destruct (client_run_new K rl g ops c l Hr) as (a & S & _).
  destruct (asteps_handles _ _ _ _ _ S g eq_refl) as [E _].
  assert (X : In h (map fst (enqueued l))).
  { apply in_split in Hi as (l1 & l2 & ->). rewrite enqueued_app, map_app. apply in_app_iff. right. now left. }
  rewrite E in X. apply in_map_iff in X as (i & <- & _). reflexivity.
Qed.

Lemma server_gen : forall K g o gr ops s l, sran K g o gr ops s l ->
  forall h e, In e l -> In h (sgiven_by e) -> h_gen h = hg_id g.
Proof.
  intros K g o gr ops s l Hr h e He Hi. destruct (server_run_new K o g gr ops s l Hr) as (a & S & _).
  destruct (xsteps_handles _ _ _ _ _ S g eq_refl) as [E _].
  assert (X : In h (sgiven l)) by (apply in_flat_map; eauto).
  rewrite E in X. apply in_map_iff in X as (i & <- & _). reflexivity.
Qed.

Section Conversation.
Context (K : Codecs) (Tc Ts : tls) (fuel : nat).

Lemma to_server_in : forall (l : list (plog K)) x, In x (calls_to_server l) ->
  In (@XCall (client_machine K) (fst x) (snd x)) (at_server l).
Proof.
  induction l as [|e l IH]; intros x H; [contradiction|].
  destruct e as [|[]| |]; cbn in H |- *; auto. destruct H as [<-|H]; [now left|right; auto].
Qed.

Lemma to_client_in : forall (l : list (plog K)) x, In x (calls_to_client l) ->
  In (@XCall (server_machine K) (fst x) (snd x)) (at_client l).
Proof.
  induction l as [|e l IH]; intros x H; [contradiction|].
  destruct e as [[]| | |]; cbn in H |- *; auto. destruct H as [<-|H]; [now left|right; auto].
Qed.

Lemma command_gen : forall gs c s gc acts p l,
  prun K Tc Ts fuel gs (proxy_start K Tc Ts c s gc) acts = (p, l) ->
  forall h, In h (command_handles l) -> h_gen h = hg_id gc.
Proof.
  intros gs c s gc acts p l R h H. apply in_flat_map in H as ([o r] & Hx & Hh). cbn [snd] in Hh.
  destruct r as [cm h'| | | | | |]; try contradiction. destruct Hh as [->|[]].
  apply to_server_in in Hx. cbn [fst snd] in Hx.
  apply proxy_streams in R as ((acts' & x & R) & _). apply client_in_stream in R as (lc & R & V).
  apply call_entries_in in Hx. rewrite <- V in Hx. apply in_flat_map in Hx as (e & He & Hx).
  refine (client_gen _ _ _ _ _ _ R h cm _).
  destruct e as [| | | | |[]|]; cbn in Hx; try contradiction; destruct Hx as [Hx|[]]; try discriminate.
  injection Hx as _ <- <-. exact He.
Qed.

Lemma response_gen : forall gs c s gc acts p l,
  prun K Tc Ts fuel gs (proxy_start K Tc Ts c s gc) acts = (p, l) ->
  forall h, In h (response_handles l) -> h_gen h = hg_id gs.
Proof.
  intros gs c s gc acts p l R h H. apply in_flat_map in H as ([o r] & Hx & Hh). cbn [snd] in Hh.
  assert (G : In h (sgiven_by r)).
  { destruct r as [| |? [|]|? [|]|? [|]|? [|]| | |]; cbn in *; assumption. }
  apply to_client_in in Hx. cbn [fst snd] in Hx.
  apply proxy_streams in R as (_ & [R|(g & g' & es & acts' & x & _ & _ & R)]); [rewrite R in Hx; contradiction|].
  apply server_in_stream in R as (ls & R & V).
  apply call_entries_in in Hx. rewrite <- V in Hx. apply in_flat_map in Hx as (e & He & Hx).
  refine (server_gen _ _ _ _ _ _ _ R h r _ G).
  destruct e as [| | | | | | |[]|]; cbn in Hx; try contradiction; destruct Hx as [Hx|[]]; try discriminate.
  all: injection Hx as _ <-; exact He.
Qed.

Lemma handles_differ : forall cfg (w : world K Tc Ts) L,
  program_runs fuel cfg w L -> clients_at_most two64 w ->
  forall i k p j m q, task_at w i k = Some (TkTalk p) -> task_at w j m = Some (TkTalk q) -> (i, k) <> (j, m) ->
  forall h,
    (In h (command_handles (conversation_of i k L)) -> ~ In h (command_handles (conversation_of j m L))) /\
    (In h (response_handles (conversation_of i k L)) -> ~ In h (response_handles (conversation_of j m L))).
Proof.
  intros cfg w L R C i k p j m q Hi Hj N h.
  destruct (own_generators K Tc Ts fuel cfg w L R C) as (ids & A & D).
  destruct (A i k p Hi) as (cs & ss & acts & A1). destruct (A j m q Hj) as (cs' & ss' & acts' & A2).
  destruct (D i k p j m q Hi Hj N) as [D1 D2].
  assert (G : forall i k p cs ss acts,
    (forall gp, match snd (ids i k) with Some n => gp = HGen n 0 | None => True end ->
      prun K Tc Ts fuel gp (proxy_start K Tc Ts cs ss (HGen (fst (ids i k)) 0)) acts = (p, conversation_of i k L)) ->
    (In h (command_handles (conversation_of i k L)) -> h_gen h = fst (ids i k)) /\
    (In h (response_handles (conversation_of i k L)) -> snd (ids i k) = Some (h_gen h))).
  { clear. intros i k p cs ss acts A. split; intro H.
    - destruct (snd (ids i k)) as [n|]; [specialize (A _ eq_refl)|specialize (A (HGen 0 0) I)];
        exact (command_gen _ _ _ _ _ _ _ A h H).
    - destruct (snd (ids i k)) as [n|].
      + specialize (A _ eq_refl). now rewrite (response_gen _ _ _ _ _ _ _ A h H).
      + pose proof (response_gen _ _ _ _ _ _ _ (A (HGen 0 0) I) h H) as X0.
        pose proof (response_gen _ _ _ _ _ _ _ (A (HGen 1 0) I) h H) as X1.
        rewrite X0 in X1. discriminate. }
  destruct (G _ _ _ _ _ _ A1) as [G1 G2], (G _ _ _ _ _ _ A2) as [G3 G4]. split; intros H H'.
  - apply D1. now rewrite <- (G1 H), <- (G3 H').
  - exact (D2 _ (G2 H) (G4 H')).
Qed.
End Conversation.
