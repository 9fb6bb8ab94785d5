(** The requests that the proxy forwards, and what they are answered: what holds of the logs of
    its [Server] ([sl]) and of its [Client] ([cl]). *)
From Coq Require Import List NArith Bool PeanoNat Lia.
From Verif Require Import Base Types Codec Handle Receive ClientSend Client ServerSend Server
  SpecFraming SpecClient SpecServer System SpecSystem SpecSystemLive SpecViews SystemViews
  Stream StreamMachine SpecStream Net SpecNet NetApp NetThms ProxyEffect ClientFit RelayFit
  ProxyUtil Proxy RelayGlue.
From Verif Require ClientInv SpecProxy ProxyFilter.
Import ListNotations.

(** ** Definitions *)

(** Requests, in the order of the calls. *)
Definition call_request (e : clog) : list request :=
  match e with
  | ClEnqueue c _ => [RqCommand c]
  | ClSetAuth d (inl _) => [RqData d]
  | ClSetDone (Some _) => [RqDone]
  | _ => []
  end.
Definition calls (l : list clog) : list request := flat_map call_request l.

(** Requests that a server reports. *)
Definition event_request (e : sevent) : list request :=
  match e with
  | SeAuthenticateDataReceived d => [RqData d]
  | SeIdleDoneReceived => [RqDone]
  | e => map RqCommand (opt_list (new_command e))
  end.
Definition entry_request (e : slog) : list request :=
  match e with SlNext (IEvent e) => event_request e | _ => [] end.
Definition told (l : list slog) : list request := flat_map entry_request l.

Definition is_special (x : handle * command) : bool :=
  match cbody (snd x) with BOther _ => false | _ => true end.
Definition pending (l : list clog) : list (handle * command) :=
  skipn (length (terminals l)) (enqueued l).
(** AUTHENTICATE and IDLE that were neither resolved nor ended by "DONE". *)
Definition open_cmds (l : list clog) : list (handle * command) :=
  filter is_special (if closing l then tl (pending l) else pending l).

(** ** Consequences of [all_fitting] *)

Lemma fit_app : forall l l1, all_fitting (l ++ l1) -> all_fitting l.
Proof.
  intros l l1 H a e b ->. apply (H a e (b ++ l1)). now rewrite <- app_assoc.
Qed.
Lemma fit_last : forall l e, all_fitting (l ++ [e]) -> fitting l e.
Proof. intros l e H. now apply (H l e []). Qed.

Lemma oldest_terminals : forall l h c, oldest l = Some (h, c) -> length (terminals l) < length (enqueued l).
Proof. intros l h c H. unfold oldest in H. apply nth_error_Some. congruence. Qed.

Lemma terminal_oldest : forall l e, fitting l (ClNext (IEvent e)) -> is_terminal e = true ->
  exists h c, oldest l = Some (h, c).
Proof.
  intros l e F H. destruct e; try discriminate H; cbn in F; unfold concerns in F;
    repeat match goal with H : _ /\ _ |- _ => destruct H | H : exists _, _ |- _ => destruct H end; eauto.
Qed.

Lemma terminals_snoc : forall l e, terminals (l ++ [e]) = terminals l ++ filter is_terminal (events [e]).
Proof. intros. now rewrite ClientInv.terminals_app. Qed.
Lemma enqueued_snoc : forall l e, enqueued (l ++ [e]) = enqueued l ++ enqueued [e].
Proof. intros. apply ClientInv.enqueued_app. Qed.

Lemma terminals_le : forall l, all_fitting l -> length (terminals l) <= length (enqueued l).
Proof.
  intro l. induction l as [|e l IH] using rev_ind; intro F; [cbn; lia|].
  pose proof (fit_last _ _ F) as Fe. specialize (IH (fit_app _ _ F)).
  rewrite terminals_snoc, enqueued_snoc, !app_length.
  destruct e as [c h|b|d r|r|x|[e| | | | | |]|]; cbn; try lia.
  destruct (is_terminal e) eqn:T; cbn; [|lia].
  destruct (terminal_oldest _ _ Fe T) as (h & c & E). apply oldest_terminals in E. lia.
Qed.

Lemma pending_oldest : forall l h c, oldest l = Some (h, c) -> exists rest, pending l = (h, c) :: rest.
Proof.
  intros l h c H. unfold oldest, pending in *. apply nth_error_split in H as (a & b & E & Ea).
  rewrite E, <- Ea, skipn_app, skipn_all, Nat.sub_diag. cbn. eauto.
Qed.

(** The oldest command changes only when it is resolved, or the first one is enqueued. *)
Lemma oldest_snoc : forall l e h c, oldest l = Some (h, c) ->
  match e with ClNext (IEvent e) => is_terminal e = false | _ => True end ->
  oldest (l ++ [e]) = Some (h, c).
Proof.
  intros l e h c H He. unfold oldest in *. rewrite terminals_snoc, enqueued_snoc.
  assert (filter is_terminal (events [e]) = []) as ->.
  { destruct e as [| | | | |[]|]; cbn; auto. now rewrite He. }
  rewrite app_nil_r, nth_error_app1; [exact H|]. apply nth_error_Some. congruence.
Qed.

Lemma fit_closing : forall l, all_fitting l -> closing l = true ->
  exists h c, oldest l = Some (h, c) /\ is_idle c.
Proof.
  intro l. induction l as [|e l IH] using rev_ind; intros F C; [discriminate|].
  pose proof (fit_last _ _ F) as Fe. specialize (IH (fit_app _ _ F)).
  rewrite closing_app in C. cbn in C.
  assert (G : closing l = true -> match e with ClNext (IEvent e) => is_terminal e = false | _ => True end ->
    exists h c, oldest (l ++ [e]) = Some (h, c) /\ is_idle c).
  { intros Q1 Q2. destruct (IH Q1) as (h & c & H1 & H2). exists h, c. split; [|exact H2].
    now apply oldest_snoc. }
  destruct e as [c h|b|d r|[h|]|x|[e| | | | | |]|]; cbn in C; auto.
  - destruct Fe as (_ & _ & c & E & Hc). exists h, c. split; [|exact Hc]. now apply oldest_snoc.
  - destruct (is_terminal e) eqn:T; [discriminate|]. now apply G.
Qed.

Lemma answers_app : forall a b, answers (a ++ b) = answers a ++ answers b.
Proof. induction a as [|x a IH]; intro b; [reflexivity|]. destruct x; cbn; now rewrite ?IH. Qed.

(** What happens without a command is not part of an exchange. *)
Definition exch_of (e : clog) : list exch := exchange [e].
Lemma fit_lonely : forall l, all_fitting l -> length (enqueued l) = length (terminals l) ->
  exchange (segment (length (terminals l)) l) = [].
Proof.
  intro l. induction l as [|e l IH] using rev_ind; intros F E; [reflexivity|].
  pose proof (fit_last _ _ F) as Fe. pose proof (terminals_le _ (fit_app _ _ F)) as Le.
  specialize (IH (fit_app _ _ F)).
  rewrite terminals_snoc, enqueued_snoc, !app_length in E. rewrite terminals_snoc, app_length, ClientInv.segment_app.
  assert (Own : forall h c, oldest l = Some (h, c) ->
     match e with ClNext (IEvent e) => is_terminal e = false | _ => True end -> False).
  { intros h c Ho Hn. apply oldest_terminals in Ho.
    destruct e as [| | | | |[e| | | | | |]|]; cbn in E; rewrite ?Hn in E; cbn in E; lia. }
  destruct e as [c h|b|d r|r|x|[e| | | | | |]|];
    cbn [events flat_map app filter length enqueued] in *; rewrite ?Nat.add_0_r in *;
    try (rewrite Nat.ltb_irrefl, Nat.eqb_refl, Nat.sub_diag, ClientInv.exchange_app, IH by lia; cbn).
  - lia.
  - reflexivity.
  - destruct r as [h|]; [|reflexivity]. destruct Fe as (_ & c & Ho & _). now destruct (Own h c Ho I).
  - destruct r as [h|]; [|reflexivity]. destruct Fe as (_ & _ & c & Ho & _). now destruct (Own h c Ho I).
  - reflexivity.
  - destruct (is_terminal e) eqn:T; cbn [length] in *; rewrite ?Nat.add_0_r in *.
    + (* resolved *)
      rewrite (proj2 (Nat.ltb_ge _ _)) by lia. rewrite (proj2 (Nat.eqb_neq _ _)) by lia.
      replace (length (terminals l) + 1 - length (terminals l)) with 1 by lia. cbn. now rewrite T.
    + rewrite Nat.ltb_irrefl, Nat.eqb_refl, Nat.sub_diag, ClientInv.exchange_app, IH by lia.
      destruct e; cbn in T |- *; try discriminate; try reflexivity; cbn in Fe; unfold concerns in Fe;
        repeat match goal with H : _ /\ _ |- _ => destruct H | H : exists _, _ |- _ => destruct H end;
        exfalso; eapply Own; eauto.
  - reflexivity.
  - reflexivity.
  - reflexivity.
  - reflexivity.
  - reflexivity.
  - reflexivity.
  - reflexivity.
Qed.
