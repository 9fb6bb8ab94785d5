(** The order of the requests that the proxy forwards; the invariant of the proxy between a
    [Server] with log [sl] and a [Client] with log [cl]. *)
From Coq Require Import List NArith Bool PeanoNat Lia.
From Verif Require Import Base Types Codec Handle Receive ClientSend Client ServerSend Server
  SpecFraming SpecClient SpecServer System SpecSystem SpecSystemLive SystemLog SpecViews SystemViews
  Stream StreamMachine SpecStream Net SpecNet NetApp NetThms ProxyEffect ClientFit RelayFit
  ProxyUtil Proxy RelayGlue Relay SpecRelay RelayInv.
From Verif Require ClientInv SpecProxy ProxyFilter.
Import ListNotations.

(** ** Order *)

(** The calls are made in the order of the commands that they concern. *)
Definition in_order (l : list clog) : Prop :=
  calls l = flat_map (segment_requests l) (seq 0 (length (enqueued l))).

Lemma calls_app : forall a b, calls (a ++ b) = calls a ++ calls b.
Proof. intros. apply flat_map_app. Qed.
Lemma told_app : forall a b, told (a ++ b) = told a ++ told b.
Proof. intros. apply flat_map_app. Qed.

Lemma seg_snoc : forall l e k, exchange (segment k (l ++ [e])) =
  exchange (segment k l) ++ (if k =? length (terminals l) then exchange [e] else []).
Proof.
  intros l e k. rewrite ClientInv.segment_app.
  destruct (k <? length (terminals l)) eqn:E1.
  - apply Nat.ltb_lt in E1. rewrite (proj2 (Nat.eqb_neq _ _)) by lia. now rewrite app_nil_r.
  - apply Nat.ltb_ge in E1. destruct (k =? length (terminals l)) eqn:E2.
    + apply Nat.eqb_eq in E2. rewrite ClientInv.exchange_app. f_equal.
      replace (k - length (terminals l)) with 0 by lia. cbn. now destruct (ends_segment e).
    + apply Nat.eqb_neq in E2. rewrite (ClientInv.segment_ge l k) by lia.
      replace (k - length (terminals l)) with (S (k - length (terminals l) - 1)) by lia. cbn.
      now destruct (ends_segment e).
Qed.

Lemma requests_snoc : forall l e k, enqueued [e] = [] ->
  segment_requests (l ++ [e]) k = segment_requests l k ++
    (if (k =? length (terminals l)) && (k <? length (enqueued l)) then answers (exchange [e]) else []).
Proof.
  intros l e k E. unfold segment_requests. rewrite enqueued_snoc, E, app_nil_r, seg_snoc.
  destruct (nth_error (enqueued l) k) as [[h c]|] eqn:N.
  - rewrite (proj2 (Nat.ltb_lt _ _)) by (apply nth_error_Some; congruence).
    rewrite andb_true_r, answers_app. cbn. now destruct (k =? length (terminals l)).
  - apply nth_error_None in N. rewrite (proj2 (Nat.ltb_ge _ _)) by lia. now rewrite andb_false_r.
Qed.

Lemma order_quiet : forall l e, enqueued [e] = [] -> answers (exchange [e]) = [] -> call_request e = [] ->
  in_order l -> in_order (l ++ [e]).
Proof.
  intros l e H1 H2 H3 H. unfold in_order in *. rewrite calls_app, H, enqueued_snoc, H1, app_nil_r.
  cbn. rewrite H3, !app_nil_r. apply flat_map_ext. intro k. rewrite requests_snoc by exact H1.
  rewrite H2. now destruct (_ && _); rewrite app_nil_r.
Qed.

Lemma order_enqueue : forall l c h, all_fitting l -> in_order l -> in_order (l ++ [ClEnqueue c h]).
Proof.
  intros l c h F H. unfold in_order in *. rewrite calls_app, H, enqueued_snoc, app_length. cbn.
  rewrite seq_app, flat_map_app. cbn. rewrite app_nil_r. f_equal.
  - apply flat_map_ext_in. intros k Hk. apply in_seq in Hk. unfold segment_requests.
    rewrite enqueued_snoc, nth_error_app1, seg_snoc by lia. cbn.
    destruct (k =? length (terminals l)); now rewrite app_nil_r.
  - unfold segment_requests. rewrite enqueued_snoc, nth_error_app2, Nat.sub_diag, seg_snoc by lia. cbn.
    enough (E : exchange (segment (length (enqueued l)) l) = []).
    { rewrite E. now destruct (_ =? _). }
    pose proof (terminals_le l F). destruct (Nat.eq_dec (length (enqueued l)) (length (terminals l))) as [Q|Q].
    + rewrite Q. now apply fit_lonely.
    + rewrite ClientInv.segment_ge by lia. reflexivity.
Qed.

Lemma order_answer : forall l e, length (enqueued l) = S (length (terminals l)) -> enqueued [e] = [] ->
  answers (exchange [e]) = call_request e -> in_order l -> in_order (l ++ [e]).
Proof.
  intros l e E H1 H2 H. unfold in_order in *. rewrite calls_app, H, enqueued_snoc, H1, app_nil_r, E.
  rewrite seq_S, !flat_map_app. cbn. rewrite !app_nil_r, <- app_assoc. f_equal.
  - apply flat_map_ext_in. intros k Hk. apply in_seq in Hk. rewrite requests_snoc by exact H1.
    rewrite (proj2 (Nat.eqb_neq _ _)) by lia. now rewrite app_nil_r.
  - rewrite requests_snoc by exact H1. rewrite Nat.eqb_refl, (proj2 (Nat.ltb_lt _ _)), H2 by lia. reflexivity.
Qed.

(** Requests that may have been sent are the first ones. *)
Lemma order_requests : forall l, in_order l -> length (terminals l) <= length (enqueued l) ->
  exists rest, calls l = requests l ++ rest.
Proof.
  intros l H Le. unfold in_order, requests in *. rewrite H.
  destruct (Nat.eq_dec (length (terminals l)) (length (enqueued l))) as [E|E].
  - exists []. rewrite E, seq_S, flat_map_app, app_nil_r. cbn.
    assert (segment_requests l (length (enqueued l)) = []) as ->.
    { unfold segment_requests. now rewrite (proj2 (nth_error_None _ _)) by lia. }
    now rewrite !app_nil_r.
  - replace (length (enqueued l)) with (S (length (terminals l)) + (length (enqueued l) - S (length (terminals l)))) by lia.
    rewrite seq_app, flat_map_app. eauto.
Qed.

(** ** Unfinished commands *)

Lemma pending_snoc : forall l e, all_fitting l -> enqueued [e] = [] -> filter is_terminal (events [e]) = [] ->
  pending (l ++ [e]) = pending l.
Proof.
  intros l e F H1 H2. unfold pending. now rewrite terminals_snoc, enqueued_snoc, H1, H2, !app_nil_r.
Qed.
Lemma pending_enqueue : forall l c h, all_fitting l -> pending (l ++ [ClEnqueue c h]) = pending l ++ [(h, c)].
Proof.
  intros l c h F. unfold pending. rewrite terminals_snoc, enqueued_snoc. cbn. rewrite app_nil_r, skipn_app.
  pose proof (terminals_le l F). replace (length (terminals l) - length (enqueued l)) with 0 by lia. reflexivity.
Qed.
Lemma pending_terminal : forall l e, is_terminal e = true -> pending (l ++ [ClNext (IEvent e)]) = tl (pending l).
Proof.
  intros l e T. unfold pending. rewrite terminals_snoc, enqueued_snoc. cbn. rewrite T, app_nil_r, app_length. cbn.
  generalize (enqueued l). induction (length (terminals l)) as [|n IH]; intros [|x q]; cbn; auto.
Qed.

Lemma open_same : forall l e, all_fitting l -> enqueued [e] = [] -> filter is_terminal (events [e]) = [] ->
  closing (l ++ [e]) = closing l -> open_cmds (l ++ [e]) = open_cmds l.
Proof. intros l e F H1 H2 H3. unfold open_cmds. now rewrite pending_snoc, H3. Qed.

Lemma open_enqueue : forall l c h, all_fitting l ->
  open_cmds (l ++ [ClEnqueue c h]) = open_cmds l ++ filter is_special [(h, c)].
Proof.
  intros l c h F. unfold open_cmds. rewrite closing_app, pending_enqueue by exact F. cbn [fold_left closing_step].
  destruct (closing l) eqn:C.
  - destruct (fit_closing l F C) as (h0 & c0 & E & _). apply pending_oldest in E as (rest & ->).
    cbn [app tl]. apply filter_app.
  - apply filter_app.
Qed.

Lemma regular_special : forall h c, regular c <-> is_special (h, c) = false.
Proof.
  intros h c. unfold regular, is_special. cbn. destruct (cbody c); split; try discriminate; try contradiction; auto.
  - intros [p H]. discriminate.
  - intros [p H]. discriminate.
  - eauto.
Qed.

(** The oldest command is resolved. *)
Lemma open_regular : forall l e h c, all_fitting l -> is_terminal e = true -> oldest l = Some (h, c) ->
  regular c -> open_cmds (l ++ [ClNext (IEvent e)]) = open_cmds l.
Proof.
  intros l e h c F T O R. unfold open_cmds. rewrite closing_app, pending_terminal by exact T. cbn. rewrite T.
  assert (closing l = false) as ->.
  { destruct (closing l) eqn:C; [|reflexivity]. destruct (fit_closing l F C) as (h0 & c0 & E & Hi).
    rewrite O in E. injection E as <- <-. destruct R as [p R]. unfold is_idle in Hi. congruence. }
  apply pending_oldest in O as (rest & ->). cbn [tl filter].
  apply (regular_special h) in R. now rewrite R.
Qed.
Lemma open_special : forall l e h c, all_fitting l -> is_terminal e = true -> oldest l = Some (h, c) ->
  ~ regular c -> closing l = false ->
  open_cmds l = (h, c) :: open_cmds (l ++ [ClNext (IEvent e)]).
Proof.
  intros l e h c F T O R C. unfold open_cmds. rewrite closing_app, pending_terminal, C by exact T. cbn. rewrite T.
  apply pending_oldest in O as (rest & ->). cbn [tl filter].
  destruct (is_special (h, c)) eqn:S; [reflexivity|]. now apply regular_special in S.
Qed.
Lemma open_closed : forall l e, all_fitting l -> is_terminal e = true -> closing l = true ->
  open_cmds (l ++ [ClNext (IEvent e)]) = open_cmds l.
Proof.
  intros l e F T C. unfold open_cmds. rewrite closing_app, pending_terminal, C by exact T. cbn. now rewrite T.
Qed.

(** The oldest command is the open one. *)
Lemma open_oldest : forall l h c, oldest l = Some (h, c) -> ~ regular c -> closing l = false ->
  exists rest, pending l = (h, c) :: rest /\ open_cmds l = (h, c) :: filter is_special rest.
Proof.
  intros l h c O R C. unfold open_cmds. rewrite C. apply pending_oldest in O as (rest & E).
  exists rest. split; [exact E|]. rewrite E. cbn.
  destruct (is_special (h, c)) eqn:S; [reflexivity|]. now apply regular_special in S.
Qed.

Lemma open_done : forall l h c, all_fitting l -> oldest l = Some (h, c) -> ~ regular c -> closing l = false ->
  open_cmds l = (h, c) :: open_cmds (l ++ [ClSetDone (Some h)]).
Proof.
  intros l h c F O R C. destruct (open_oldest l h c O R C) as (rest & E1 & E2). rewrite E2.
  unfold open_cmds. rewrite closing_app, pending_snoc by auto. cbn. now rewrite E1.
Qed.

(** If the open command was enqueued last, it is the only pending one. *)
Lemma open_alone : forall l h c x pre, oldest l = Some (h, c) -> ~ regular c -> closing l = false ->
  open_cmds l = [x] -> enqueued l = pre ++ [x] -> x = (h, c) /\ length (enqueued l) = S (length (terminals l)).
Proof.
  intros l h c x pre O R C E1 E2. destruct (open_oldest l h c O R C) as (rest & P1 & P2).
  rewrite P2 in E1. injection E1 as <- Er. split; [reflexivity|].
  pose proof (oldest_terminals _ _ _ O) as Lt. unfold pending in P1.
  assert (Q : skipn (length (terminals l)) (enqueued l) = skipn (length (terminals l)) pre ++ skipn (length (terminals l) - length pre) [(h, c)]).
  { rewrite E2. apply skipn_app. }
  rewrite E2, app_length in Lt |- *. cbn in *.
  replace (length (terminals l) - length pre) with 0 in Q by lia. rewrite P1 in Q. cbn in Q.
  assert (Rs : skipn (length (terminals l)) pre = []).
  { destruct (skipn (length (terminals l)) pre) as [|y ys]; [reflexivity|]. cbn in Q. injection Q as Q0 Q. exfalso.
    assert (S : is_special (h, c) = true).
    { destruct (is_special (h, c)) eqn:S; [reflexivity|]. now apply regular_special in S. }
    rewrite Q, filter_app in Er. cbn [filter] in Er. rewrite S in Er. destruct (filter is_special ys); discriminate. }
  apply (f_equal (@length _)) in Rs. rewrite skipn_length in Rs. cbn in Rs. lia.
Qed.

(** ** Finished commands *)

Lemma finished_quiet : forall l e t, enqueued [e] = [] -> (forall h, e <> ClSetDone (Some h)) ->
  finished (l ++ [e]) t -> finished l t.
Proof.
  intros l e t H1 H2 (k & h & c & N & Ht & H). exists k, h, c.
  rewrite enqueued_snoc, H1, app_nil_r in N. split; [exact N|]. split; [exact Ht|].
  destruct H as [H|[H3 H4]]; [now left|right]. split; [exact H3|].
  rewrite seg_snoc in H4. apply in_app_or in H4 as [H4|H4]; [exact H4|]. exfalso.
  destruct (k =? length (terminals l)); [|contradiction].
  destruct e as [| |? []|[]| |[[]| | | | | |]|]; cbn in H4; try contradiction;
    destruct H4 as [H4|[]]; try discriminate. now apply (H2 h0).
Qed.

Lemma finished_enqueue : forall l c h t, all_fitting l -> finished (l ++ [ClEnqueue c h]) t ->
  finished l t \/ (regular c /\ ctag c = t).
Proof.
  intros l c h t F (k & h0 & c0 & N & Ht & H). rewrite enqueued_snoc in N. cbn in N.
  destruct (Nat.lt_ge_cases k (length (enqueued l))) as [Lt|Ge].
  - left. exists k, h0, c0. rewrite nth_error_app1 in N by exact Lt. split; [exact N|]. split; [exact Ht|].
    rewrite seg_snoc in H. cbn in H. destruct (k =? length (terminals l)); now rewrite app_nil_r in H.
  - rewrite nth_error_app2 in N by exact Ge. destruct (k - length (enqueued l)) as [|n] eqn:En; [|destruct n; discriminate].
    injection N as <- <-. assert (k = length (enqueued l)) as -> by lia.
    right. destruct H as [H|[H1 H2]]; [now split|]. exfalso.
    rewrite seg_snoc in H2. cbn in H2.
    assert (E : exchange (segment (length (enqueued l)) l) = []).
    { pose proof (terminals_le l F). destruct (Nat.eq_dec (length (enqueued l)) (length (terminals l))) as [Q|Q].
      - rewrite Q. now apply fit_lonely.
      - rewrite ClientInv.segment_ge by lia. reflexivity. }
    rewrite E in H2. now destruct (_ =? _).
Qed.

Lemma finished_done : forall l h h1 c1 t, oldest l = Some (h1, c1) -> finished (l ++ [ClSetDone (Some h)]) t ->
  finished l t \/ ctag c1 = t.
Proof.
  intros l h h1 c1 t O (k & h0 & c0 & N & Ht & H). rewrite enqueued_snoc in N. cbn in N. rewrite app_nil_r in N.
  rewrite seg_snoc in H. destruct (k =? length (terminals l)) eqn:E.
  - apply Nat.eqb_eq in E as ->. unfold oldest in O. rewrite O in N. injection N as <- <-. now right.
  - left. exists k, h0, c0. now rewrite app_nil_r in H.
Qed.
