(** What the proxy writes to its client. *)
From Coq Require Import List NArith Bool PeanoNat Lia.
From Verif Require Import Base Types Codec Handle Receive ClientSend Client ServerSend Server
  SpecFraming SpecClient SpecServer Stream StreamMachine SpecStream StreamProofs StreamState
  StreamServer ProxyUtil Proxy SpecProxy ProxyFilter ProxyEffect ProxyProofs ProxyInv ProxyRuns.
Import ListNotations.

Section Wire.
Context (K : Codecs).
Notation SM := (server_machine K).

(** A successful call accepts the response it was called with. *)
Definition faithful (e : xlog SM) : Prop :=
  match e with
  | XCall o r => accepted r = if s_call_failed r then [] else [responding o]
  | _ => True
  end.

Lemma view_faithful : forall e, Forall faithful (@server_view K e).
Proof.
  intros e. destruct e; cbn; try (constructor; [|constructor]); try constructor;
    cbn; try exact I; try (match goal with |- context [match ?r with _ => _ end] => destruct r end; cbn; auto).
  constructor; [exact I|constructor].
Qed.

Lemma entries_faithful : forall ls (l : list (xlog SM)),
  flat_map server_view ls = call_entries l -> Forall faithful l.
Proof.
  intros ls l E.
  assert (F : Forall faithful (call_entries l)).
  { rewrite <- E. clear. induction ls as [|e ls IH]; [constructor|]. cbn [flat_map].
    apply Forall_app. split; [apply view_faithful|exact IH]. }
  clear E. induction l as [|e l IH]; [constructor|].
  destruct e; cbn in F; try (inversion F; subst); constructor; auto; exact I.
Qed.

Lemma given_calls : forall l : list (plog K), Forall faithful (at_client l) ->
  Forall (fun x => s_call_failed (snd x) = false) (calls_to_client l) ->
  given (at_client l) = map responding (map fst (calls_to_client l)).
Proof.
  induction l as [|e l IH]; intros F C; [reflexivity|].
  destruct e as [e|e| |]; cbn in *; try (apply IH; assumption).
  inversion F as [|? ? F1 F2]; subst.
  destruct e; cbn in *; try (apply IH; assumption).
  inversion C as [|? ? C1 C2]; subst. cbn in C1. rewrite C1 in F1. rewrite F1. cbn. f_equal. now apply IH.
Qed.

Context (Tc Ts : tls) (fuel : nat) (gs gc : hgen) (s0 : stream Ts).
Notation c0 := (stream_insecure Tc).

Lemma proxy_server_writes : forall g x l, server_ran K Tc fuel gs c0 g x l ->
  exists ys, merged proxy_soptions (given l) ys /\
    (exists rest, xwritten l ++ rest = greeting_bytes K g ++ responses_bytes K ys) /\
    (greeting_bytes K g <> [] -> (forall r, frags_bytes (enc_response K r) <> []) -> x_f x = FRead ->
     xwritten l = greeting_bytes K g ++ responses_bytes K ys \/
     exists ys1 r ys2, ys = ys1 ++ r :: ys2 /\ own_response proxy_soptions r /\
       xwritten l = greeting_bytes K g ++ responses_bytes K (ys1 ++ [r])).
Proof. intros g x l [acts E]. eapply stream_server_writes. exact E. Qed.

Lemma server_ran_faithful : forall g x l, server_ran K Tc fuel gs c0 g x l -> Forall faithful l.
Proof.
  intros g x l [acts E]. apply server_in_stream in E as (ls & _ & V). eapply entries_faithful; eauto.
Qed.

Theorem proxy_writes : forall acts p l,
  prun K Tc Ts fuel gs (proxy_start K Tc Ts c0 s0 gc) acts = (p, l) -> ~ In PlPanic l ->
  at_client l = [] \/
  exists g g' es ys, server_events l = CeGreetingReceived g :: es /\ greeting_reduced g g' /\
    merged proxy_soptions (map responding (map fst (calls_to_client l))) ys /\
    exists rest, xwritten (at_client l) ++ rest = greeting_bytes K g' ++ responses_bytes K ys.
Proof.
  intros acts p l E N.
  pose proof (proxy_succeeds K Tc Ts fuel gs _ _ _ _ _ _ E N) as [_ C].
  apply proxy_runs_streams in E as (_ & [E|(g & x & (es & E1) & R)]); [now left|]. right.
  rewrite <- (given_calls l) by (auto; eapply server_ran_faithful; exact R).
  apply proxy_server_writes in R as (ys & M & W & _).
  exists g, (filter_greeting g), es, ys. split; [exact E1|]. split; [apply filter_greeting_reduced|]. auto.
Qed.

Theorem proxy_waiting : forall acts x s l,
  prun K Tc Ts fuel gs (proxy_start K Tc Ts c0 s0 gc) acts = (PsLoop x s, l) ->
  (forall g, greeting_bytes K g <> []) -> (forall r, frags_bytes (enc_response K r) <> []) ->
  x_f x = FRead ->
  exists g g' es ys, server_events l = CeGreetingReceived g :: es /\ greeting_reduced g g' /\
    merged proxy_soptions (map responding (map fst (calls_to_client l))) ys /\
    (xwritten (at_client l) = greeting_bytes K g' ++ responses_bytes K ys \/
     exists ys1 r ys2, ys = ys1 ++ r :: ys2 /\ own_response proxy_soptions r /\
       xwritten (at_client l) = greeting_bytes K g' ++ responses_bytes K (ys1 ++ [r])).
Proof.
  intros acts x s l E G1 G2 F.
  assert (C : Forall (fun x => s_call_failed (snd x) = false) (calls_to_client l)).
  { apply prun_inv in E. apply E. }
  assert (I : pinv K Tc Ts fuel gs gc c0 s0 (PsLoop x s) ([] ++ l)).
  { exact (prun_ind K Tc Ts fuel gs _ (pinv_step K Tc Ts fuel gs gc c0 s0) acts _ [] _ l
      (pinv_start K Tc Ts fuel gs gc c0 s0) E). }
  cbn [app pinv] in I. destruct I as (_ & _ & g & (es & E1) & R & _).
  rewrite <- (given_calls l) by (auto; eapply server_ran_faithful; exact R).
  apply proxy_server_writes in R as (ys & M & _ & W).
  exists g, (filter_greeting g), es, ys. split; [exact E1|]. split; [apply filter_greeting_reduced|].
  split; [exact M|]. now apply W.
Qed.
End Wire.
