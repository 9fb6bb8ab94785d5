(** Facts about the logs of the composed system: requests, completed tags, messages under
    way. *)
From Coq Require Import List NArith Bool PeanoNat Lia.
From Verif Require Import Base Types Codec Handle Receive ServerSend ClientSend Client Server
  SpecFraming SpecClient SpecServer ServerInv System SystemAbs SpecSystem.
From Verif Require ClientInv.
Import ListNotations.

(** ** Requests *)

Lemma cmds_app : forall a b, cmds (a ++ b) = cmds a ++ cmds b.
Proof. intros. apply flat_map_app. Qed.

Lemma cmds_in : forall c rs, In (RqCommand c) rs <-> In c (cmds rs).
Proof.
  intros c rs. unfold cmds. rewrite in_flat_map. split.
  - intro H. exists (RqCommand c). split; [exact H|now left].
  - intros ([c'| |] & H & Hin); cbn in Hin; try contradiction.
    destruct Hin as [->|[]]. exact H.
Qed.

Lemma answers_app : forall a b, answers (a ++ b) = answers a ++ answers b.
Proof. induction a as [|e a IH]; intro b; [reflexivity|]. destruct e; cbn; now rewrite ?IH. Qed.

Lemma cmds_answers : forall xs, cmds (answers xs) = [].
Proof. induction xs as [|e xs IH]; [reflexivity|]. destruct e; cbn; auto. Qed.

(** Requests of resolved commands, and of the current one. *)
Definition started (cur : option current_message) (l : list clog) : list request :=
  resolved_requests l ++
  match cur with Some _ => segment_requests l (length (terminals l)) | None => [] end.

Lemma nth_error_app_some : forall {A} (l l' : list A) k x,
  nth_error l k = Some x -> nth_error (l ++ l') k = Some x.
Proof.
  intros A l l' k x H. rewrite nth_error_app1; [exact H|]. apply nth_error_Some. congruence.
Qed.

Lemma nth_error_lt : forall {A} (l : list A) k, k < length l -> exists x, nth_error l k = Some x.
Proof.
  intros A l k H. destruct (nth_error l k) eqn:E; [eauto|]. apply nth_error_None in E. lia.
Qed.

Lemma flat_map_ext_in : forall {A B} (f g : A -> list B) l,
  (forall x, In x l -> f x = g x) -> flat_map f l = flat_map g l.
Proof.
  intros A B f g l H. induction l as [|a l IH]; [reflexivity|]. cbn.
  rewrite H by now left. rewrite IH; auto. intros x Hx. apply H. now right.
Qed.

Lemma resolved_old : forall l l1,
  length (terminals l) <= length (enqueued l) ->
  flat_map (segment_requests (l ++ l1)) (seq 0 (length (terminals l))) = resolved_requests l.
Proof.
  intros l l1 H. unfold resolved_requests. apply flat_map_ext_in.
  intros k Hk. apply in_seq in Hk. unfold segment_requests.
  rewrite ClientInv.enqueued_app, nth_error_app1 by lia.
  rewrite ClientInv.segment_old by lia. reflexivity.
Qed.

Section Started.
  Variable l : list clog.
  Notation T := (length (terminals l)).

  Lemma started_keep : forall l1 m m',
    ClientInv.no_end l1 -> T < length (enqueued l) ->
    started (Some m') (l ++ l1) = started (Some m) l ++ answers (exchange l1).
  Proof.
    intros l1 m m' Hn Ht. unfold started, resolved_requests.
    rewrite ClientInv.terminals_app, (ClientInv.no_end_terminals l1 Hn), app_nil_r.
    rewrite resolved_old by lia. rewrite <- app_assoc. f_equal.
    unfold segment_requests. rewrite ClientInv.enqueued_app, nth_error_app1 by lia.
    destruct (nth_error_lt (enqueued l) T Ht) as ((h & c) & ->).
    pose proof (ClientInv.cur_seg_app l l1 Hn) as E. unfold cur_seg in E.
    rewrite ClientInv.terminals_app, (ClientInv.no_end_terminals l1 Hn), app_nil_r in E.
    rewrite E, ClientInv.exchange_app, answers_app. reflexivity.
  Qed.

  Lemma started_none : forall l1,
    ClientInv.no_end l1 -> T <= length (enqueued l) -> started None (l ++ l1) = started None l.
  Proof.
    intros l1 Hn Ht. unfold started. rewrite !app_nil_r. unfold resolved_requests.
    rewrite ClientInv.terminals_app, (ClientInv.no_end_terminals l1 Hn), app_nil_r.
    apply resolved_old. exact Ht.
  Qed.

  Lemma started_start : forall l1 m h c,
    ClientInv.no_end l1 -> nth_error (enqueued l) T = Some (h, c) ->
    exchange (cur_seg l) = [] -> exchange l1 = [] ->
    started (Some m) (l ++ l1) = started None l ++ [RqCommand c].
  Proof.
    intros l1 m h c Hn Hc Hx Hx1.
    assert (Ht : T < length (enqueued l)) by (apply nth_error_Some; congruence).
    rewrite (started_keep l1 m m Hn Ht), Hx1, app_nil_r.
    unfold started. rewrite app_nil_r. f_equal. unfold segment_requests. rewrite Hc.
    unfold cur_seg in Hx. now rewrite Hx.
  Qed.

  Lemma started_end : forall l1 t m,
    ClientInv.no_end l1 -> is_terminal t = true -> T < length (enqueued l) ->
    exchange (l1 ++ [ClNext (IEvent t)]) = [] ->
    started None (l ++ l1 ++ [ClNext (IEvent t)]) = started (Some m) l.
  Proof.
    intros l1 t m Hn Ht Hl Hx. unfold started at 1. rewrite app_nil_r. unfold resolved_requests.
    destruct (ClientInv.segment_end l l1 t Hn Ht) as (E1 & E2 & _).
    rewrite E1, app_length. cbn [length]. rewrite seq_app, flat_map_app, resolved_old by lia.
    unfold started. f_equal. cbn. rewrite app_nil_r. unfold segment_requests.
    rewrite ClientInv.enqueued_app, nth_error_app1 by lia.
    destruct (nth_error_lt (enqueued l) T Hl) as ((h & c) & ->).
    rewrite E2, ClientInv.exchange_app, Hx, app_nil_r. reflexivity.
  Qed.

  Lemma started_prefix : forall cur, exists rest, requests l = started cur l ++ rest.
  Proof.
    intro cur. unfold requests, started. rewrite seq_S, flat_map_app. cbn. rewrite app_nil_r.
    destruct cur; [exists []; now rewrite app_nil_r|].
    exists (segment_requests l T). now rewrite (app_nil_r (resolved_requests l)).
  Qed.

  Lemma started_all : forall cur, (cur = None -> T >= length (enqueued l)) ->
    requests l = started cur l.
  Proof.
    intros cur H. unfold requests, started. rewrite seq_S, flat_map_app. cbn.
    rewrite app_nil_r. f_equal. destruct cur; [reflexivity|].
    unfold segment_requests. specialize (H eq_refl).
    now rewrite (proj2 (nth_error_None (enqueued l) T)).
  Qed.

  Lemma started_cmds : forall cur,
    T + length (ClientInv.cur_cmd cur) <= length (enqueued l) ->
    cmds (started cur l) = map snd (firstn (T + length (ClientInv.cur_cmd cur)) (enqueued l)).
  Proof.
    assert (P : forall n, n <= length (enqueued l) ->
      cmds (flat_map (segment_requests l) (seq 0 n)) = map snd (firstn n (enqueued l))).
    { induction n as [|n IH]; intro Hn; [reflexivity|].
      rewrite seq_S, flat_map_app, cmds_app, IH by lia. cbn [flat_map plus]. rewrite app_nil_r.
      unfold segment_requests. destruct (nth_error_lt (enqueued l) n Hn) as ((h & c) & E).
      rewrite E. cbn [cmds flat_map app].
      fold (cmds (answers (exchange (segment n l)))). rewrite cmds_answers.
      clear - E. revert n E. induction (enqueued l) as [|x xs IH]; intros n E; [destruct n; discriminate|].
      destruct n as [|n]; [injection E as ->; reflexivity|]. cbn in E.
      cbn [firstn map app]. f_equal. apply (IH n E). }
    intros cur H. unfold started. destruct cur as [m|].
    - assert (length (ClientInv.cur_cmd (Some m)) = 1) as Hc by now destruct m.
      rewrite Hc in *. pose proof (P (T + 1) H) as Q. rewrite Nat.add_1_r in *.
      rewrite seq_S, flat_map_app in Q. cbn [plus flat_map] in Q. rewrite app_nil_r in Q. exact Q.
    - cbn in *. rewrite Nat.add_0_r in *. rewrite app_nil_r. now apply P.
  Qed.
End Started.

(** ** Server log *)

Lemma completed_from_app : forall a t b,
  completed_from t (a ++ b) = completed_from t a ++ completed_from (fold_left open_step a t) b.
Proof.
  induction a as [|e a IH]; intros t b; [reflexivity|].
  cbn [app completed_from fold_left]. now rewrite IH, app_assoc.
Qed.

Lemma completed_app : forall a b,
  completed (a ++ b) = completed a ++ completed_from (open_tag a) b.
Proof. intros. apply completed_from_app. Qed.

Lemma open_tag_app : forall a b, open_tag (a ++ b) = fold_left open_step b (open_tag a).
Proof. intros. apply fold_left_app. Qed.

Lemma asked_app : forall a b, asked (a ++ b) = fold_left asked_step b (asked a).
Proof. intros. apply fold_left_app. Qed.

Lemma polite_app : forall a b, polite (a ++ b) -> polite a.
Proof. intros a b H l1 e l2 ->. apply (H l1 e (l2 ++ b)). now rewrite <- app_assoc. Qed.

(** ** The assumptions hold for earlier logs *)

Lemma orderly_app : forall K relaxed o gr l l1,
  orderly K relaxed o gr (l ++ l1) -> orderly K relaxed o gr l.
Proof.
  intros K relaxed o gr l l1 [H1 H2 H3 H4 H5 H6 H7]. rewrite clogs_app, slogs_app in *.
  constructor; auto.
  - intros m Hm. apply H1. rewrite scheduled_app. apply in_or_app. now left.
  - intros h c Hc. apply (H2 h c). rewrite ClientInv.enqueued_app. apply in_or_app. now left.
  - intros d h Hd. apply (H3 d h). apply in_or_app. now left.
  - intros h Hd. apply (H4 h). apply in_or_app. now left.
  - rewrite ClientInv.enqueued_app, map_app in H6. clear - H6.
    induction (map (fun x : handle * command => ctag (snd x)) (enqueued (clogs l))) as [|t ts IH];
      [constructor|]. cbn in H6. inversion H6 as [|? ? Hn Hd]; subst. constructor; auto.
    intro Hin. apply Hn. apply in_or_app. now left.
  - now apply polite_app in H7.
Qed.
