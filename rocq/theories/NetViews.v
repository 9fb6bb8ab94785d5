(** What the applications of two connected streams can expect. *)
From Coq Require Import List NArith Bool PeanoNat.
From Verif Require Import Base Types Codec Handle Receive ServerSend ClientSend Client Server
  SpecFraming SpecClient SpecServer System SpecSystem SpecSystemLive SpecViews SystemViews
  Stream StreamMachine SpecStream Net SpecNet NetProofs NetApp NetThms.
Import ListNotations.

Lemma filter_split : forall {A} (f : A -> bool) l a e b, filter f l = a ++ e :: b ->
  exists a' b', l = a' ++ e :: b' /\ filter f a' = a /\ filter f b' = b.
Proof.
  intros A f l. induction l as [|x l IH]; intros a e b H; cbn in H; [now destruct a|].
  destruct (f x) eqn:E.
  - destruct a as [|y a]; cbn in H; injection H as -> H.
    + exists [], l. auto.
    + apply IH in H as (a' & b' & -> & <- & <-). exists (y :: a'), b'. cbn. now rewrite E.
  - apply IH in H as (a' & b' & -> & <- & <-). exists (x :: a'), b'. cbn. now rewrite E.
Qed.

Lemma shown_cfold : forall A (f : A -> clog -> A), (forall a e, c_shown e = false -> f a e = a) ->
  forall l a, fold_left f (filter c_shown l) a = fold_left f l a.
Proof.
  intros A f H l. induction l as [|e l IH]; intro a; [reflexivity|]. cbn.
  destruct (c_shown e) eqn:E; cbn; [apply IH|]. now rewrite (H _ _ E).
Qed.
Lemma shown_due : forall l, due (filter c_shown l) = due l.
Proof.
  intro l. apply shown_cfold. intros a e. destruct e as [| | | |c|[]|]; cbn; try discriminate; auto.
Qed.
Lemma shown_idles : forall l, idles (filter c_shown l) = idles l.
Proof.
  intro l. apply shown_cfold. intros a e. destruct e as [| | | |c|[]|]; cbn; try discriminate; auto.
Qed.
Lemma shown_finished : forall l t, finished l t -> finished (filter c_shown l) t.
Proof.
  intros l t (k & h & c & H1 & H2 & H3). exists k, h, c.
  now rewrite shown_enqueued, shown_segment, shown_exchange.
Qed.
Lemma shown_concluded : forall l t, concluded l t -> concluded (filter c_shown l) t.
Proof.
  intros l t (k & h & c & e & H). exists k, h, c, e. now rewrite shown_enqueued, shown_terminals.
Qed.

Lemma shown_expected : forall l, all_expected l -> all_expected (filter c_shown l).
Proof.
  intros l H l1 e l2 E. apply filter_split in E as (a & b & E & <- & <-).
  specialize (H _ _ _ E). destruct e; cbn in *; auto; rewrite ?shown_due, ?shown_idles; auto.
  destruct s; auto. destruct H. auto using shown_finished, shown_concluded.
Qed.
Lemma shown_data_asked : forall l, data_asked l -> data_asked (filter s_shown l).
Proof.
  intros l H l1 d l2 E. apply filter_split in E as (a & b & E & <- & <-).
  rewrite shown_asked. eauto.
Qed.

Lemma net_views : forall K relaxed o gc gs gr T1 T2 z L,
  @talk K relaxed o gc gs gr T1 T2 z L ->
  orderly K relaxed o gr (app_log L) -> own_roundtrips K relaxed o (app_log L) ->
  all_expected (clogs (app_log L)) /\ data_asked (slogs (app_log L)).
Proof.
  intros K relaxed o gc gs gr T1 T2 z L Tk Ord Own.
  destruct (net_lift K relaxed o gc gs gr T1 T2 z L Tk Ord Own) as (acts & y & l & Y & O & E1 & E2).
  destruct (system_views K relaxed gc gs o gr acts y l Y O) as [V1 V2].
  rewrite E1, E2, shown_clogs, shown_slogs. split; [now apply shown_expected|now apply shown_data_asked].
Qed.
