(** What a server in a stream without TLS writes. *)
From Coq Require Import List NArith Bool PeanoNat Lia.
From Verif Require Import Base Types Codec Handle ServerSend Server SpecFraming SpecClient SpecServer
  ServerThms Stream StreamMachine SpecStream StreamProofs StreamThms StreamState.
From Verif Require ServerInv.
Import ListNotations.

(** ** The last call before waiting for input *)

Section Waiting.
Context (T : tls) (M : machine) (fuel : nat).

Definition last_next (l : list (xlog M)) : Prop :=
  exists l1 r l2, l = l1 ++ XNext r :: l2 /\ calls l2 = [] /\ (r = MNeedMore \/ r = MOutput []).

Lemma last_next_app : forall l l', last_next l' -> last_next (l ++ l').
Proof. intros l l' (l1 & r & l2 & -> & H). exists (l ++ l1), r, l2. now rewrite app_assoc. Qed.

Definition winv (x : xstate T M) (l : list (xlog M)) : Prop :=
  x_tls (x_s x) = None /\ (x_f x = FRead -> last_next l).

Lemma winv_sync : forall (s : stream T) m x' l', x_tls s = None -> sync T M fuel s m = (x', l') -> winv x' l'.
Proof.
  intros s m x' l' H E. unfold sync, sync_input in E. rewrite H in E.
  assert (G : forall (s1 : stream T) m1 l1, x_tls s1 = None ->
    match m_next M m1 with
    | None => (XState s1 m1 FDead, l1 ++ [XPanic])
    | Some (m2, r) =>
        match r with
        | MEvent e => (XState s1 m2 FIdle, (l1 ++ [XNext r]) ++ [XRet (RetEvent e)])
        | MError e => (XState s1 m2 FIdle, (l1 ++ [XNext r]) ++ [XRet (RetState e)])
        | MOutput b =>
            match sync_output T fuel s1 b with
            | (s2, None) => (XState s2 m2 (next_await T s2), l1 ++ [XNext r])
            | (s2, Some e) => fail T M s2 m2 (l1 ++ [XNext r]) e
            end
        | MNeedMore =>
            match sync_output T fuel s1 [] with
            | (s2, None) => (XState s2 m2 (next_await T s2), l1 ++ [XNext r])
            | (s2, Some e) => fail T M s2 m2 (l1 ++ [XNext r]) e
            end
        end
    end = (x', l') -> winv x' l').
  { intros s1 m1 l1 H1 E1. destruct (m_next M m1) as [[m2 r]|].
    2:{ apply pair_equal_spec in E1 as [<- <-]. split; [exact H1|discriminate]. }
    destruct r as [e| |b|e]; unfold sync_output in E1; rewrite ?H1 in E1;
      apply pair_equal_spec in E1 as [<- <-]; cbn; (split; [assumption || reflexivity|]); try discriminate.
    - intros _. exists l1, MNeedMore, []. auto.
    - unfold next_await. cbn. destruct (x_wbuf s1 ++ b) eqn:W; [|discriminate].
      apply app_eq_nil in W as [_ ->]. intros _. exists l1, (MOutput []), []. auto. }
  destruct (x_rbuf s) as [|y b].
  - eapply G; eauto.
  - destruct (m_enqueue M m (y :: b)) as [m'|].
    + eapply (G (StreamSt None [] (x_wbuf s)) m' [XGive (y :: b)]); [reflexivity|exact E].
    + apply pair_equal_spec in E as [<- <-]. split; [exact H|discriminate].
Qed.

Lemma winv_step : forall x l a x' l', winv x l -> xstep T M fuel x a = (x', l') -> winv x' (l ++ l').
Proof.
  intros x l a x' l' [H1 H2] E.
  assert (Sy : forall s m y k h, x_tls s = None -> sync T M fuel s m = (y, k) -> winv y (l ++ h :: k)).
  { intros s m y k h Hs Es. apply winv_sync in Es as [E1 E2]; [|exact Hs]. split; [exact E1|].
    intro F. apply (last_next_app (l ++ [h])) in E2; auto. now rewrite <- app_assoc in E2. }
  assert (N : winv x (l ++ [])) by (rewrite app_nil_r; now split).
  assert (I : forall (y : xstate T M) k, x_tls (x_s y) = None -> x_f y <> FRead -> winv y (l ++ k))
    by (intros y k Hy Fy; split; [exact Hy|intro; contradiction]).
  destruct a as [| |r|r|ok| |o]; cbn [xstep] in E.
  - destruct (x_f x); try (apply pair_equal_spec in E as [<- <-]; exact N).
    destruct (sync T M fuel (x_s x) (x_m x)) as [y k] eqn:Es. apply pair_equal_spec in E as [<- <-].
    eapply Sy; [|exact Es]. exact H1.
  - destruct (x_f x); try (apply pair_equal_spec in E as [<- <-]; exact N).
    unfold start_flush in E. rewrite H1 in E. apply pair_equal_spec in E as [<- <-].
    apply I; [exact H1|]. cbn. unfold flush_await. destruct (x_wbuf (x_s x)); discriminate.
  - destruct (reading (x_f x)); [|apply pair_equal_spec in E as [<- <-]; exact N].
    destruct r as [[|b r]|]; try (apply pair_equal_spec in E as [<- <-]; apply I; [exact H1|discriminate]).
    destruct (sync T M fuel _ (x_m x)) as [y k] eqn:Es. apply pair_equal_spec in E as [<- <-].
    eapply Sy; [|exact Es]. exact H1.
  - destruct (writing (x_f x)) eqn:W; [|apply pair_equal_spec in E as [<- <-]; exact N].
    destruct r as [[|n]|]; try (apply pair_equal_spec in E as [<- <-]; apply I; [exact H1|discriminate]).
    destruct (Nat.leb (S n) (length (x_wbuf (x_s x)))); [|apply pair_equal_spec in E as [<- <-]; exact N].
    cbn [x_wbuf] in E.
    assert (NF : x_f x <> FRead) by (intro F; rewrite F in W; discriminate).
    destruct (skipn (S n) (x_wbuf (x_s x))).
    + destruct (x_f x); try (apply pair_equal_spec in E as [<- <-]; apply I; [exact H1|discriminate]).
      destruct (sync T M fuel _ (x_m x)) as [y k] eqn:Es. apply pair_equal_spec in E as [<- <-].
      eapply Sy; [|exact Es]. exact H1.
    + apply pair_equal_spec in E as [<- <-]. apply I; [exact H1|exact NF].
  - destruct (x_f x) eqn:F; apply pair_equal_spec in E as [<- <-]; try exact N.
    apply I; [exact H1|discriminate].
  - destruct (pending (x_f x)); apply pair_equal_spec in E as [<- <-]; [|exact N].
    apply I; [exact H1|discriminate].
  - destruct (x_f x) eqn:F; try (apply pair_equal_spec in E as [<- <-]; exact N).
    destruct (m_call M (x_m x) o) as [[m1 r]|]; apply pair_equal_spec in E as [<- <-];
      (apply I; [exact H1|discriminate]).
Qed.

Lemma waiting_last_next : forall m acts x l,
  xrun T M fuel (XState (stream_insecure T) m FIdle) acts = (x, l) -> x_f x = FRead -> last_next l.
Proof.
  intros m acts x l E. apply (xrun_ind T M fuel winv) in E; [apply E| |apply winv_step].
  split; [reflexivity|discriminate].
Qed.
End Waiting.

(** ** Logs *)

Section Views.
Context {K : Codecs}.
Notation SM := (server_machine K).

Lemma view_outputs : forall ls (l : list (xlog SM)), flat_map server_view ls = call_entries l -> xoutputs l = soutputs ls.
Proof.
  intros ls l E.
  assert (O1 : forall l : list (xlog SM), xoutputs (call_entries l) = xoutputs l).
  { induction l0 as [|e l0 IH]; [reflexivity|]. destruct e as [| |[]| | | | | | | |]; cbn; congruence. }
  rewrite <- O1, <- E. clear. unfold soutputs.
  induction ls as [|e ls IH]; [reflexivity|]. destruct e; cbn; try exact IH. destruct r; cbn; congruence.
Qed.

Lemma view_given : forall ls (l : list (xlog SM)), flat_map server_view ls = call_entries l ->
  given l = flat_map accepted ls.
Proof.
  intros ls l E.
  assert (O1 : forall l : list (xlog SM), given (call_entries l) = given l).
  { induction l0 as [|e l0 IH]; [reflexivity|]. destruct e; cbn; congruence. }
  rewrite <- O1, <- E. clear. induction ls as [|e ls IH]; [reflexivity|].
  cbn [flat_map]. rewrite <- IH. destruct e; cbn; try reflexivity; destruct r; reflexivity.
Qed.
End Views.

Definition smsg_response (m : smsg) : list response :=
  match m with SmGreeting _ => [] | SmResponse _ r => [r] end.

Definition the_responses (o : soptions) (l : list slog) : list response :=
  flat_map smsg_response (flat_map (scheduled_by o) l).

Lemma the_responses_merged : forall o l, merged o (flat_map accepted l) (the_responses o l).
Proof.
  intros o l. unfold the_responses. induction l as [|e l IH]; [constructor|].
  assert (W : forall i r, own_response o r ->
    merged o (flat_map accepted l)
      (flat_map smsg_response (when_sync i (SmResponse None r) ++ flat_map (scheduled_by o) l))).
  { intros i r H. unfold when_sync. destruct (cl_mode i); cbn; [now apply mg_own|exact IH]. }
  destruct e; cbn; try exact IH; try (destruct r; cbn; try exact IH; now apply mg_given).
  destruct m as [raw []|i]; cbn; try exact IH; apply W; [right; eexists; reflexivity|now left].
Qed.

Lemma scheduled_by_response : forall o l m, In m (flat_map (scheduled_by o) l) ->
  exists h r, m = SmResponse h r /\ (h = None -> own_response o r).
Proof.
  intros o l m H. apply in_flat_map in H as (e & _ & H).
  assert (W : forall i r, own_response o r -> In m (when_sync i (SmResponse None r)) ->
    exists h r, m = SmResponse h r /\ (h = None -> own_response o r)).
  { intros i r Hr Hm. unfold when_sync in Hm. destruct (cl_mode i); [|contradiction].
    destruct Hm as [<-|[]]. eauto. }
  assert (N : forall (h : handle) r, In m [SmResponse (Some h) r] ->
    exists h r, m = SmResponse h r /\ (h = None -> own_response o r)).
  { intros h r [<-|[]]. do 2 eexists. split; [reflexivity|discriminate]. }
  destruct e; cbn [scheduled_by] in H; try contradiction;
    try (eapply N; exact H);
    try (match type of H with In _ match ?r with _ => _ end => destruct r end;
         try contradiction; try (eapply N; exact H)).
  - match type of H with In _ match ?r with _ => _ end => destruct r end; try contradiction.
    eapply W; [|exact H]. right. eexists. reflexivity.
  - eapply W; [|exact H]. now left.
Qed.

Lemma the_responses_map : forall K o l,

  concat (map (smsg_bytes K) (flat_map (scheduled_by o) l)) = responses_bytes K (the_responses o l).
Proof.
  intros K o l. unfold the_responses, responses_bytes.
  assert (G := scheduled_by_response o l).
  induction (flat_map (scheduled_by o) l) as [|m ms IH]; [reflexivity|].
  cbn [map concat flat_map]. rewrite map_app, concat_app, <- IH; [|intros; apply G; now right].
  destruct (G m (or_introl eq_refl)) as (h & r & -> & _). cbn. now rewrite app_nil_r.
Qed.

(** ** What is written *)

Lemma server_run_split : forall K ops1 ops2 s s2 l, server_run K s (ops1 ++ ops2) = (Some s2, l) ->
  exists s1 l1 l2, server_run K s ops1 = (Some s1, l1) /\ server_run K s1 ops2 = (Some s2, l2) /\ l = l1 ++ l2.
Proof.
  intros K. induction ops1 as [|o ops1 IH]; intros ops2 s s2 l E.
  - exists s, [], l. auto.
  - cbn [app server_run] in *. destruct (server_step K s o) as [[s1|] l0] eqn:S; [|discriminate].
    destruct (server_run K s1 (ops1 ++ ops2)) as [r l3] eqn:R.
    apply pair_equal_spec in E as [-> <-].
    apply IH in R as (s3 & l1 & l2 & R1 & R2 & ->). exists s3, (l0 ++ l1), l2. rewrite R1.
    repeat split; [exact R2|now rewrite app_assoc].
Qed.

Lemma calls_app : forall M (l1 l2 : list (xlog M)), calls (l1 ++ l2) = calls l1 ++ calls l2.
Proof. intros M l1 l2. induction l1 as [|e l1 IH]; [reflexivity|]. destruct e; cbn; now rewrite ?IH. Qed.

Lemma call_entries_app : forall M (l1 l2 : list (xlog M)),
  call_entries (l1 ++ l2) = call_entries l1 ++ call_entries l2.
Proof. intros M l1 l2. induction l1 as [|e l1 IH]; [reflexivity|]. destruct e; cbn; now rewrite ?IH. Qed.

Lemma no_calls_entries : forall M (l : list (xlog M)), calls l = [] -> call_entries l = [].
Proof. intros M l. induction l as [|e l IH]; [reflexivity|]. destruct e; cbn; auto; discriminate. Qed.

Section Written.
Context (K : Codecs) (o : soptions) (gr : greeting).

Lemma responses_bytes_app : forall a b,
  responses_bytes K (a ++ b) = responses_bytes K a ++ responses_bytes K b.
Proof. intros a b. unfold responses_bytes. now rewrite map_app, concat_app. Qed.

Lemma scheduled_bytes : forall l, concat (map (smsg_bytes K) (scheduled o gr l)) =
  greeting_bytes K gr ++ responses_bytes K (the_responses o l).
Proof. intro l. unfold scheduled. cbn [map concat]. now rewrite the_responses_map. Qed.

Lemma souts_none : forall l, sresults l = [] -> souts l = [].
Proof. induction l as [|e l IH]; intro H; [reflexivity|]. destruct e; cbn in *; auto. discriminate. Qed.

(** The server in terms of its own log. *)
Lemma server_outputs : forall g ops s l, sran K g o gr ops s l ->
  exists rest, soutputs l ++ rest = greeting_bytes K gr ++ responses_bytes K (the_responses o l).
Proof.
  intros g ops s l R. destruct (s_in_order K g o gr ops s l R) as [E _].
  exists (concat (map (smsg_bytes K) (skipn (length (souts l)) (scheduled o gr l)))).
  unfold soutputs. rewrite E at 1. rewrite <- concat_app, <- map_app, firstn_skipn.
  apply scheduled_bytes.
Qed.

Lemma server_idle_outputs : forall g ops s l, sran K g o gr ops s (l ++ [SlNext INeedMore]) ->
  let ys := the_responses o l in
  soutputs l = greeting_bytes K gr ++ responses_bytes K ys \/
  exists ys1 r ys2, ys = ys1 ++ r :: ys2 /\ own_response o r /\
    soutputs l = greeting_bytes K gr ++ responses_bytes K (ys1 ++ [r]).
Proof.
  intros g ops s l R ys.
  destruct (s_in_order K g o gr ops s _ R) as [E L].
  rewrite ServerInv.souts_app in E, L. cbn [souts] in E, L. rewrite app_nil_r in E, L.
  assert (Sc : scheduled o gr (l ++ [SlNext INeedMore]) = scheduled o gr l)
    by (unfold scheduled; rewrite flat_map_app; cbn; now rewrite app_nil_r).
  rewrite Sc in E, L. clear Sc.
  destruct (s_need_more_unsent K g o gr ops s _ R l [] eq_refl) as (_ & [H|(l0 & b & lm & m & El & Hl & Hn & Hm)]).
  - left. unfold unsent in H. assert (L2 : length (scheduled o gr l) <= length (souts l)).
    { apply (f_equal (@length _)) in H. rewrite skipn_length in H. cbn [length] in H. lia. }
    unfold soutputs. rewrite E, firstn_all2 by lia. apply scheduled_bytes.
  - right. subst l. rewrite ServerInv.souts_app in E, L. cbn [souts] in E, L.
    rewrite (souts_none lm) in E, L by exact Hl. rewrite app_length in E, L. cbn [length] in E, L.
    assert (Ssc : scheduled o gr (l0 ++ SlNext (IOutput b) :: lm) =
      scheduled o gr l0 ++ flat_map (scheduled_by o) lm).
    { unfold scheduled. rewrite flat_map_app. reflexivity. }
    unfold soutputs. rewrite ServerInv.souts_app. cbn [souts]. rewrite (souts_none lm), E by exact Hl.
    apply nth_error_split in Hn as (m1 & m2 & Em & Lm). rewrite Ssc, Em.
    destruct m1 as [|m0 m1]; [unfold scheduled in Em; injection Em as <- _; discriminate|].
    assert (m0 = SmGreeting gr) as -> by (unfold scheduled in Em; now injection Em as <- _).
    unfold scheduled in Em. injection Em as Em.
    destruct (scheduled_by_response o l0 m) as (h & r & -> & Ho); [rewrite Em; apply in_elt|].
    destruct h as [h|]; [discriminate|].
    assert (Eys : ys = flat_map smsg_response m1 ++ r ::
      flat_map smsg_response (m2 ++ flat_map (scheduled_by o) lm)).
    { unfold ys, the_responses. rewrite flat_map_app. cbn [flat_map scheduled_by].
      rewrite Em, <- app_assoc, flat_map_app. reflexivity. }
    exists (flat_map smsg_response m1), r, (flat_map smsg_response (m2 ++ flat_map (scheduled_by o) lm)).
    split; [exact Eys|]. split; [now apply Ho|].
    replace (length (souts l0) + 1) with (length ((SmGreeting gr :: m1) ++ [SmResponse None r]))
      by (rewrite app_length; cbn; cbn in Lm; lia).
    replace (((SmGreeting gr :: m1) ++ SmResponse None r :: m2) ++ flat_map (scheduled_by o) lm)
      with (((SmGreeting gr :: m1) ++ [SmResponse None r]) ++ m2 ++ flat_map (scheduled_by o) lm)
      by (now rewrite <- !app_assoc).
    rewrite firstn_app, Nat.sub_diag, firstn_all. cbn [firstn]. rewrite app_nil_r.
    cbn [app map concat smsg_bytes]. unfold greeting_bytes. f_equal.
    rewrite responses_bytes_app, map_app, concat_app. f_equal.
    + clear - Em. assert (G : forall m, In m m1 -> exists h r, m = SmResponse h r).
      { intros m H. destruct (scheduled_by_response o l0 m) as (h & r0 & -> & _); [|eauto].
        rewrite Em. apply in_or_app. now left. }
      clear Em. induction m1 as [|m m1 IH]; [reflexivity|].
      destruct (G m (or_introl eq_refl)) as (h & r0 & ->). cbn [map concat flat_map smsg_response app].
      rewrite IH by (intros; apply G; now right). reflexivity.
Qed.

Theorem stream_server_writes : forall g T fuel acts x l,
  xrun T (server_machine K) fuel
    (@XState T (server_machine K) (stream_insecure T) (server_new g o gr) FIdle) acts = (x, l) ->
  exists ys, merged o (given l) ys /\
    (exists rest, xwritten l ++ rest = greeting_bytes K gr ++ responses_bytes K ys) /\
    (greeting_bytes K gr <> [] -> (forall r, frags_bytes (enc_response K r) <> []) -> x_f x = FRead ->
     xwritten l = greeting_bytes K gr ++ responses_bytes K ys \/
     exists ys1 r ys2, ys = ys1 ++ r :: ys2 /\ own_response o r /\
       xwritten l = greeting_bytes K gr ++ responses_bytes K (ys1 ++ [r])).
Proof.
  intros g T fuel acts x l E.
  destruct (server_in_stream K g o gr T fuel _ _ _ _ _ E) as (ls & R & V).
  exists (the_responses o ls). split; [rewrite (view_given _ _ V); apply the_responses_merged|].
  destruct (plain_conserved T (server_machine K) fuel _ _ _ _ E) as [C _].
  rewrite (view_outputs _ _ V) in C.
  split.
  - destruct (server_outputs _ _ _ _ R) as (rest & Hr). exists (x_wbuf (x_s x) ++ rest).
    now rewrite app_assoc, C.
  - intros Hg Hne F.
    pose proof (plain_waiting T (server_machine K) fuel _ _ _ _ E F) as W.
    rewrite (view_outputs _ _ V) in W. rewrite W.
    destruct (waiting_last_next T (server_machine K) fuel _ _ _ _ E F) as (l1 & r & l2 & -> & L2 & Lr).
    rewrite calls_app in R. cbn [calls] in R. rewrite L2, map_app in R. cbn [map server_sop] in R.
    destruct (server_run_split _ _ _ _ _ _ R) as (s1 & la & lb & Ra & Rb & ->).
    cbn -[server_next] in Rb. destruct (server_next K s1) as [[s2 rx] r'] eqn:N.
    destruct (s_returns K g o gr _ _ _ Ra _ _ _ N) as [N1 N2].
    assert (Elb : lb = map SlRx rx ++ [SlNext r'])
      by (destruct (s_is_panic r'); [discriminate|]; apply pair_equal_spec in Rb as [_ <-];
          now rewrite app_nil_r).
    subst lb.
    assert (Er : mres_of r' = Some r).
    { rewrite call_entries_app, flat_map_app, flat_map_app, server_view_rx in V. cbn in V.
      rewrite (no_calls_entries _ _ L2) in V. destruct (mres_of r') as [r2|] eqn:Em.
      - cbn in V. apply app_inj_tail in V as [_ V]. now injection V as ->.
      - exfalso. destruct r'; try discriminate Em; try contradiction. discriminate Rb. }
    rewrite app_assoc in *.
    set (lc := la ++ map SlRx rx) in *.
    assert (Nm : r' = INeedMore).
    { destruct Lr as [->| ->]; [now destruct r'|].
      destruct r' as [| | |b| | |]; try discriminate. injection Er as ->. exfalso.
      destruct (s_in_order K g o gr _ _ _ R) as [Eo Lo].
      rewrite ServerInv.souts_app in Eo, Lo. cbn [souts] in Eo, Lo.
      match type of Eo with ?X = _ => assert (Ei : In [] X) by (apply in_or_app; right; now left) end.
      rewrite Eo in Ei. apply in_map_iff in Ei as (m & Em & Im).
      assert (Im2 : In m (scheduled o gr (lc ++ [SlNext (IOutput [])])))
        by (match type of Im with In _ (firstn ?k ?z) => rewrite <- (firstn_skipn k z) end;
            apply in_or_app; now left).
      destruct Im2 as [<-|Im2]; [now apply Hg|].
      destruct (scheduled_by_response _ _ _ Im2) as (h & q & -> & _). now apply (Hne q). }
    subst r'.
    replace (soutputs (lc ++ [SlNext INeedMore])) with (soutputs lc)
      by (unfold soutputs; now rewrite ServerInv.souts_app, app_nil_r).
    replace (the_responses o (lc ++ [SlNext INeedMore])) with (the_responses o lc)
      by (unfold the_responses; rewrite flat_map_app; cbn; now rewrite app_nil_r).
    exact (server_idle_outputs _ _ _ _ R).
Qed.
End Written.
