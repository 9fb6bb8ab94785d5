(** A client connected to a server: the greeting. *)
From Coq Require Import List NArith Bool PeanoNat Lia.
From Verif Require Import Base Types Codec Handle Receive ServerSend ClientSend Client Server
  SpecFraming SpecClient SpecServer ClientAbs ServerAbs ServerInv System SystemAbs SpecSystem SystemResp.
From Verif Require ClientInv.
Import ListNotations.

Definition greeting_verdicts (vs : list cverdict) : list greeting :=
  flat_map (fun v => match v with CvGreeting g => [g] | _ => [] end) vs.

Lemma greetings_received : forall K relaxed g l a, asteps K relaxed (astate_new g) l a ->
  greetings (events l) = greeting_verdicts (received l).
Proof.
  intros K relaxed g l z H. induction H as [z|z l a1 l1 a2 H IH H1]; [reflexivity|].
  unfold received in *. unfold greetings, greeting_verdicts in *.
  rewrite ClientInv.events_app, ClientInv.taken_app, map_app, !flat_map_app, IH. f_equal.
  destruct H1 as [a cmd g0 h Hg|a x|a d s r Hs|a s r Hs|a s Hgr Hs|a s e Hgr Hs|a s b Hgr Hs
        |a Hst Hno|a raw rest ls g0 Hgr Hb Hf|a raw rest ls q s Hgr Hst Hb Hf Hl
        |a raw rest ls m c' e Hgr Hst Hb Hf Hh|a raw rest v e Hst Hb Hbad]; cbn; try reflexivity.
  - destruct e; reflexivity.
  - apply ClientInv.handle_response_event in Hh as [_ Hh]. destruct e; try reflexivity. now edestruct Hh.
  - destruct v; try reflexivity. destruct Hbad as [[H2 _]|[H2 _]]; discriminate H2.
Qed.

Lemma scheduled_responses : forall o e, greeting_verdicts (map msg_verdict (scheduled_by o e)) = [].
Proof.
  intros o e. destruct e as [r h|b|q [h|r]|s [h|r]|q [h|r]|s [h|r]|x|r|]; cbn; try reflexivity;
    try (destruct x as [raw v|i]); try destruct v; cbn; try reflexivity; unfold when_sync;
    repeat match goal with |- context [cl_mode ?i] => destruct (cl_mode i) end; reflexivity.
Qed.

Lemma scheduled_greeting : forall o gr l,
  greeting_verdicts (map msg_verdict (scheduled o gr l)) = [gr].
Proof.
  intros o gr l. unfold scheduled. cbn. f_equal.
  induction l as [|e l IH]; [reflexivity|]. cbn [flat_map]. unfold greeting_verdicts in *.
  rewrite map_app, flat_map_app. fold (greeting_verdicts (map msg_verdict (scheduled_by o e))).
  now rewrite scheduled_responses, IH.
Qed.

Section Greet.
Context (K : Codecs) (relaxed : bool) (o : soptions) (gc gs : hgen) (gr : greeting).
Context (acts : list yact) (y : sys) (l : list ylog).
Hypothesis Run : yran K relaxed gc gs o gr acts y l.
Hypothesis Law : forall m, In m (scheduled o gr (slogs l)) -> msg_roundtrips K relaxed m.

(** It is reported at most once, *)
Lemma greeted_once : exists rest, [gr] = greetings (events (clogs l)) ++ rest.
Proof.
  destruct (sys_run_new K relaxed o gc gs gr _ _ _ Run) as (zz & St & _).
  rewrite (greetings_received K relaxed _ _ _ (zsteps_asteps K relaxed o _ _ _ St)).
  destruct (resp_prefix K relaxed o gc gs gr acts y l Run Law) as (rest & E).
  rewrite <- (scheduled_greeting o gr (slogs l)).
  rewrite <- (firstn_skipn (length (souts (slogs l))) (scheduled o gr (slogs l))).
  fold (sent o gr (slogs l)). rewrite map_app, E. unfold greeting_verdicts. rewrite !flat_map_app.
  rewrite <- app_assoc. eauto.
Qed.

(** and when both sides wait, it was reported. *)
Lemma greeted_waiting : waiting K y -> greetings (events (clogs l)) = [gr].
Proof.
  intro W. destruct (sys_run_new K relaxed o gc gs gr _ _ _ Run) as (zz & St & Rc & Rs & _).
  rewrite (greetings_received K relaxed _ _ _ (zsteps_asteps K relaxed o _ _ _ St)).
  rewrite (resp_waiting K relaxed o gc gs gr acts y l Run Law W).
  pose proof (sinv_steps K o gs gr _ _ (zsteps_xsteps K relaxed o _ _ _ St)) as I.
  destruct (sent_spec K o gr _ _ I) as [_ A]. destruct W as (_ & _ & _ & s & W).
  destruct (server_waits K o _ _ _ Rs W) as (x1 & _ & _ & _ & _ & _ & _ & _ & Q & C1 & _).
  destruct (sent o gr (slogs l)) as [|m ms] eqn:E.
  - exfalso. destruct (si_queue _ _ _ _ _ I) as (dn & D1 & D2 & _).
    assert (N : souts (slogs l) = []).
    { pose proof (f_equal (@length _) E) as E'. unfold sent in E'. rewrite firstn_length in E'.
      unfold scheduled in E'. cbn [length] in E'. now destruct (souts (slogs l)). }
    rewrite N in D2. symmetry in D2. apply map_eq_nil, app_eq_nil in D2 as [-> D2].
    destruct (x_send (z_x zz)) as [q [m|]]; [discriminate|]. cbn in A. subst q. discriminate Q.
  - pose proof (scheduled_greeting o gr (slogs l)) as G. rewrite A in G.
    assert (m = SmGreeting gr) as -> by (unfold scheduled in A; now injection A).
    cbn in G |- *. f_equal. injection G as G. rewrite map_app in G.
    unfold greeting_verdicts in G. rewrite flat_map_app in G. now apply app_eq_nil in G as [G _].
Qed.
End Greet.
