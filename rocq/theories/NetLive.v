(** Two streams without TLS come to rest. *)
From Coq Require Import List NArith Bool PeanoNat Lia Wf_nat.
From Verif Require Import Base Types Codec Handle Receive ServerSend ClientSend Client Server
  SpecFraming SpecClient SpecServer System SpecSystem SpecSystemLive SystemLive SystemSettle
  Stream StreamMachine SpecStream StreamProofs StreamThms StreamState StreamUpgrade
  Net SpecNet NetProofs NetSystem NetApp NetRest NetThms.
From Verif Require ClientInv SystemLog.
Import ListNotations.

(** *** One side *)

Section Side.
Context (T : tls) (M : machine) (fuel : nat).
Notation xst := (xstate T M).

Definition rank (f : fut) : nat :=
  match f with FIdle => 1 | FFlushTcp | FFlushWrite => 2 | _ => 0 end.
Definition mu (x : xst) : nat := length (x_wbuf (x_s x)) + rank (x_f x).

Definition out_of (r : mres (m_ev M) (m_er M)) : bytes := match r with MOutput b => b | _ => [] end.

(** A call of [next] of the state, after [b] was given to it, if it is not empty. *)
Inductive called (x x' : xst) (b : bytes) (l' : list (xlog M)) : Prop :=
| Called : forall m1 r wb,
    match b with [] => m1 = x_m x | _ => m_enqueue M (x_m x) b = Some m1 end ->
    m_next M m1 = Some (x_m x', r) ->
    x_wbuf (x_s x) = xwritten l' ++ wb -> x_wbuf (x_s x') = wb ++ out_of r ->
    (r = MNeedMore -> b = [] -> mu x' < mu x) -> called x x' b l'.

Lemma sync_called : forall (s : stream T) (m : m_st M) x' l', x_tls s = None ->
  sync T M fuel s m = (x', l') -> x_f x' <> FDead ->
  exists m1 r, match x_rbuf s with [] => m1 = m | b => m_enqueue M m b = Some m1 end /\
    m_next M m1 = Some (x_m x', r) /\ x_wbuf (x_s x') = x_wbuf s ++ out_of r /\ xwritten l' = [] /\
    (r = MNeedMore -> rank (x_f x') = 0).
Proof.
  intros s m x' l' H E D. pose proof (sync_entries _ _ _ _ _ _ _ E) as Q. apply iter_quiet in Q as [_ Q].
  unfold sync in E. destruct (sync_input T M fuel s m) as [[[s1 m1] l1] r1] eqn:I.
  assert (P : x_tls s1 = None /\ r1 = None /\ x_wbuf s1 = x_wbuf s /\
    match m1 with
    | None => True
    | Some m1 => match x_rbuf s with [] => m1 = m | b => m_enqueue M m b = Some m1 end
    end).
  { unfold sync_input in I. rewrite H in I.
    destruct (x_rbuf s) eqn:B; [|destruct (m_enqueue _ _ _) eqn:Q1]; injection I as <- <- <- <-; cbn; auto. }
  destruct P as (P1 & -> & P2 & P3). destruct m1 as [m1|].
  2:{ injection E as <- <-. now contradiction D. }
  destruct (m_next M m1) as [[m2 r]|] eqn:N; [|injection E as <- <-; now contradiction D].
  exists m1, r. split; [exact P3|].
  assert (W : x_m x' = m2 /\ x_wbuf (x_s x') = x_wbuf s ++ out_of r /\ (r = MNeedMore -> rank (x_f x') = 0)).
  { unfold sync_output in E. rewrite P1 in E. unfold next_await in E.
    destruct r; injection E as <- <-; cbn; rewrite ?app_nil_r, ?P2; repeat split; auto; try discriminate.
    intros _. now destruct (x_wbuf s). }
  destruct W as (<- & W2 & W3). repeat split; auto.
Qed.

Lemma calm_step : forall (x : xst) a x' l', x_tls (x_s x) = None -> x_rbuf (x_s x) = [] ->
  calm a -> xstep T M fuel x a = (x', l') -> x_f x' <> FDead ->
  l' = [] \/
  (x_m x' = x_m x /\ x_wbuf (x_s x) = xwritten l' ++ x_wbuf (x_s x') /\ mu x' < mu x) \/
  called x x' [] l'.
Proof.
  intros x a x' l' H R C E D.
  destruct a as [| |r|[[|n]|]|[|]| |o]; try contradiction; cbn [xstep] in E.
  - destruct (x_f x) eqn:F; try (injection E as _ <-; now left).
    destruct (sync T M fuel (x_s x) (x_m x)) as [y k] eqn:S. injection E as <- <-.
    apply (sync_called _ _ _ _ H S) in D as (m1 & r & D1 & D2 & D3 & D4 & D5). rewrite R in D1.
    right. right. apply (Called _ _ _ _ m1 r (x_wbuf (x_s x))); auto.
    + cbn. now rewrite D4.
    + intros E _. unfold mu. rewrite D3, F, (D5 E), E. cbn. rewrite app_nil_r. lia.
  - destruct (writing (x_f x)) eqn:W; [|injection E as _ <-; now left].
    destruct (Nat.leb (S n) (length (x_wbuf (x_s x)))) eqn:Lb; [|injection E as _ <-; now left].
    apply Nat.leb_le in Lb. cbn [x_wbuf] in E. right.
    assert (Cut : x_wbuf (x_s x) = firstn (S n) (x_wbuf (x_s x)) ++ skipn (S n) (x_wbuf (x_s x)))
      by (symmetry; apply firstn_skipn).
    assert (Len : length (skipn (S n) (x_wbuf (x_s x))) < length (x_wbuf (x_s x)))
      by (rewrite skipn_length; lia).
    destruct (skipn (S n) (x_wbuf (x_s x))) as [|w ws] eqn:Sk.
    + destruct (x_f x) eqn:F; try discriminate.
      * destruct (sync T M fuel _ (x_m x)) as [y k] eqn:S. injection E as <- <-.
        pose proof (sync_called (StreamSt (x_tls (x_s x)) _ _) _ _ _ H S D) as (m1 & r & D1 & D2 & D3 & D4 & D5).
        cbn [x_rbuf] in D1. rewrite R in D1. cbn [x_wbuf] in D3.
        right. apply (Called _ _ _ _ m1 r []); auto.
        -- cbn [xwritten]. now rewrite D4, app_nil_r.
        -- intros E _. unfold mu. rewrite D3, F, (D5 E), E. cbn. cbn in Len. lia.
      * injection E as <- <-. left. split; [reflexivity|]. split; [cbn [xwritten]; now rewrite app_nil_r|].
        unfold mu. cbn. rewrite F. cbn in Len |- *. lia.
    + apply pair_equal_spec in E as [<- <-]. left. split; [reflexivity|]. cbn [xwritten]. rewrite app_nil_r.
      split; [exact Cut|]. unfold mu. cbn [x_s x_wbuf x_f]. lia.
  - destruct (x_f x) eqn:F; try (injection E as _ <-; now left). injection E as <- <-. right. left.
    cbn. split; [reflexivity|]. split; [reflexivity|]. unfold mu. cbn. rewrite F. cbn. lia.
Qed.

Lemma read_step_called : forall (x : xst) b bs x' l', x_tls (x_s x) = None -> x_rbuf (x_s x) = [] ->
  reading (x_f x) = true -> xstep T M fuel x (ARead (Some (b :: bs))) = (x', l') -> x_f x' <> FDead ->
  called x x' (b :: bs) l'.
Proof.
  intros x b bs x' l' H R F E D. cbn [xstep] in E. rewrite F, R in E. cbn [app] in E.
  destruct (sync T M fuel _ (x_m x)) as [y k] eqn:S. injection E as <- <-.
  pose proof (sync_called (StreamSt (x_tls (x_s x)) _ _) _ _ _ H S D) as (m1 & r & D1 & D2 & D3 & D4 & D5).
  cbn [x_rbuf] in D1. cbn [x_wbuf] in D3. apply (Called _ _ _ _ m1 r (x_wbuf (x_s x))); auto; [|discriminate].
  cbn. now rewrite D4.
Qed.
End Side.

(** *** Both sides *)

Section Live.
Context (K : Codecs) (relaxed : bool) (o : soptions) (gc gs : hgen) (gr : greeting) (T1 T2 : tls)
  (fuel : nat).
Notation CM := (client_machine K).
Notation SM := (server_machine K).
Notation net0 := (net T1 T2 CM SM).
Hypothesis NT : no_trailing K relaxed.
Hypothesis SL : single_lines K.
Hypothesis ST : sno_trailing K o.
Notation z0 := (net_new T1 T2 CM SM (stream_insecure T1) (client_new gc relaxed)
  (stream_insecure T2) (server_new gs o gr)).

Definition reached (z : net0) (L : list (nlog CM SM)) : Prop :=
  exists acts, net_run T1 T2 CM SM fuel z0 acts = (z, L).

Record good (z : net0) : Prop := Good {
  gd_t1 : x_tls (x_s (n_l z)) = None;
  gd_t2 : x_tls (x_s (n_r z)) = None;
  gd_r1 : x_rbuf (x_s (n_l z)) = [];
  gd_r2 : x_rbuf (x_s (n_r z)) = [];
  gd_d1 : x_f (n_l z) <> FDead;
  gd_d2 : x_f (n_r z) <> FDead
}.

Lemma plain_tls : forall T M m acts x l, xrun T M fuel (XState (stream_insecure T) m FIdle) acts = (x, l) ->
  x_tls (x_s x) = None.
Proof.
  intros T M m acts x l E. apply (xrun_ind T M fuel (fun x _ => clean T M x)) in E; [apply E|now split|].
  intros. eapply xstep_clean; eauto.
Qed.

Lemma reached_good : forall z L, reached z L -> good z.
Proof.
  intros z L (acts & E). apply net_projects in E as [(a1 & E1) (a2 & E2)].
  assert (D1 : x_f (n_l z) <> FDead).
  { pose proof E1 as P. apply plain_alive in P as [_ P]. intro F. apply P in F. revert F.
    eapply stream_no_panic; [|exact E1]. intro cs. now apply client_calls_live. }
  assert (D2 : x_f (n_r z) <> FDead).
  { pose proof E2 as P. apply plain_alive in P as [_ P]. intro F. apply P in F. revert F.
    eapply stream_no_panic; [|exact E2]. intro cs. now apply server_calls_live. }
  split; auto; try (eapply plain_tls; eassumption).
  - now apply (plain_read_buffer _ _ _ _ _ _ _ E1).
  - now apply (plain_read_buffer _ _ _ _ _ _ _ E2).
Qed.

Lemma reached_step : forall z L a z' l, reached z L -> net_step T1 T2 CM SM fuel z a = (z', l) ->
  reached z' (L ++ l).
Proof.
  intros z L a z' l (acts & E) S. exists (acts ++ [a]). rewrite net_run_app, E. cbn -[net_step].
  rewrite S. now rewrite app_nil_r.
Qed.

(** The state of the direct connection. *)
Definition direct (z : net0) : sys :=
  Sys (x_m (n_l z)) (x_m (n_r z))
    (n_right z ++ x_wbuf (x_s (n_l z))) (n_left z ++ x_wbuf (x_s (n_r z))).

Lemma direct_ran : forall z L, reached z L -> exists acts l, yran K relaxed gc gs o gr acts (direct z) l.
Proof.
  intros z L R. pose proof (reached_good _ _ R) as G. destruct R as (acts & E).
  destruct (net_plain T1 T2 CM SM fuel _ _ _ _ _ E) as [C1 C2].
  assert (Tk : @talk K relaxed o gc gs gr T1 T2 z L) by (eapply talk_plain; eauto).
  destruct (net_direct _ _ _ _ _ _ _ _ _ _ Tk) as (ya & y & l & Y & St & _).
  exists ya, l. replace (direct z) with y; [exact Y|]. destruct St as [S1 S2 _ _ S5 S6].
  rewrite S5, (gd_r2 _ G) in C1. rewrite S6, (gd_r1 _ G) in C2.
  apply app_inv_head in C1. apply app_inv_head in C2. destruct y. cbn in *. unfold direct.
  now rewrite C1, C2, S1, S2.
Qed.

(** The direct connection makes the same calls, and has made progress, or a measure decreases. *)
Definition follows (z z' : net0) : Prop :=
  exists acts l, Forall auto acts /\ sys_run K (direct z) acts = (Some (direct z'), l) /\
    (mu _ _ (n_l z') + mu _ _ (n_r z') < mu _ _ (n_l z) + mu _ _ (n_r z) \/
     exists e, In e l /\ ~ idle_entry e).

Lemma client_nexts : forall (c c' : client) r, m_next CM c = Some (c', r) ->
  exists l, client_step K c CopNext = (Some c', l) /\ cwritten l = out_of CM r /\
    (r = MNeedMore \/ exists e, In e l /\ ~ idle_entry (YC e)).
Proof.
  intros c c' r N. assert (S : call_step CM c ScNext = Some (c', XNext r)) by (cbn -[m_next]; now rewrite N).
  apply client_call_step in S as (l & S & V). exists l. split; [exact S|].
  split.
  - rewrite <- (client_view_outputs K), V. destruct r; cbn; now rewrite ?app_nil_r.
  - destruct r; auto; right.
    all: match type of V with _ = [?x] => assert (Hx : In x (flat_map (@client_view K) l)) by (rewrite V; now left) end.
    all: apply in_flat_map in Hx as (a & Ha & Hx); exists a; split; [exact Ha|]; intro Hi;
      destruct a as [| | | | |[]|]; cbn in Hi, Hx; try contradiction; destruct Hx as [Hx|[]]; discriminate.
Qed.

Lemma server_nexts : forall (c c' : server) r, m_next SM c = Some (c', r) ->
  exists l, server_step K c SopNext = (Some c', l) /\ swritten l = out_of SM r /\
    (r = MNeedMore \/ exists e, In e l /\ ~ idle_entry (YS e)).
Proof.
  intros c c' r N. assert (S : call_step SM c ScNext = Some (c', XNext r)) by (cbn -[m_next]; now rewrite N).
  apply server_call_step in S as (l & S & V). exists l. split; [exact S|].
  split.
  - rewrite <- (server_view_outputs K), V. destruct r; cbn; now rewrite ?app_nil_r.
  - destruct r; auto; right.
    all: match type of V with _ = [?x] => assert (Hx : In x (flat_map (@server_view K) l)) by (rewrite V; now left) end.
    all: apply in_flat_map in Hx as (a & Ha & Hx); exists a; split; [exact Ha|]; intro Hi;
      destruct a as [| | | | | | |[]|]; cbn in Hi, Hx; try contradiction; destruct Hx as [Hx|[]]; discriminate.
Qed.

Lemma client_follows : forall z x' b l' q, called T1 CM (n_l z) x' b l' -> n_left z = b ++ q ->
  follows z (Net x' (n_r z) (n_right z ++ xwritten l') q).
Proof.
  intros z x' b l' q [m1 r wb G N W1 W2 Mu] Q.
  apply client_nexts in N as (ln & N & Wn & Pn).
  assert (Next : forall y, y_client y = m1 -> sys_run K y [YClient CopNext] =
    (Some (Sys (x_m x') (y_server y) (y_to_server y ++ out_of CM r) (y_to_client y)), map YC ln)).
  { intros y Hy. cbn [sys_run sys_step is_cinput]. rewrite Hy, N, Wn. now rewrite app_nil_r. }
  assert (Fin : direct (Net x' (n_r z) (n_right z ++ xwritten l') q) =
    Sys (x_m x') (x_m (n_r z)) ((n_right z ++ x_wbuf (x_s (n_l z))) ++ out_of CM r)
      (q ++ x_wbuf (x_s (n_r z)))).
  { unfold direct. cbn. now rewrite W1, W2, !app_assoc. }
  destruct b as [|b bs].
  - subst m1. exists [YClient CopNext], (map YC ln). split; [repeat constructor|].
    rewrite Next by reflexivity. rewrite Fin. cbn in Q. subst q. split; [reflexivity|].
    destruct Pn as [->|(e & He & Hi)].
    + left. cbn. specialize (Mu eq_refl eq_refl). lia.
    + right. exists (YC e). split; [now apply in_map|exact Hi].
  - exists [YToClient (length (b :: bs)); YClient CopNext], (YC (ClInput (b :: bs)) :: map YC ln).
    split; [repeat constructor|]. split.
    + change [YToClient (length (b :: bs)); YClient CopNext] with ([YToClient (length (b :: bs))] ++ [YClient CopNext]).
      assert (S1 : sys_run K (direct z) [YToClient (length (b :: bs))] =
        (Some (Sys m1 (x_m (n_r z)) (n_right z ++ x_wbuf (x_s (n_l z))) (q ++ x_wbuf (x_s (n_r z)))),
         [YC (ClInput (b :: bs))])).
      { cbn [sys_run sys_step client_step]. unfold direct. cbn [y_client y_server y_to_server y_to_client].
        rewrite Q, <- app_assoc. rewrite firstn_app, Nat.sub_diag, firstn_all, firstn_O, app_nil_r.
        cbn [m_enqueue client_machine] in G.
        destruct (client_enqueue_input (x_m (n_l z)) (b :: bs)) as [c1|]; [|discriminate]. injection G as ->.
        rewrite skipn_app, Nat.sub_diag, skipn_all. reflexivity. }
      rewrite (sys_run_app _ _ _ _ _ _ S1), Next by reflexivity. rewrite Fin. reflexivity.
    + right. eexists. split; [left; reflexivity|]. cbn. tauto.
Qed.

Lemma server_follows : forall z x' b l' q, called T2 SM (n_r z) x' b l' -> n_right z = b ++ q ->
  follows z (Net (n_l z) x' q (n_left z ++ xwritten l')).
Proof.
  intros z x' b l' q [m1 r wb G N W1 W2 Mu] Q.
  apply server_nexts in N as (ln & N & Wn & Pn).
  assert (Next : forall y, y_server y = m1 -> sys_run K y [YServer SopNext] =
    (Some (Sys (y_client y) (x_m x') (y_to_server y) (y_to_client y ++ out_of SM r)), map YS ln)).
  { intros y Hy. cbn [sys_run sys_step is_sinput]. rewrite Hy, N, Wn. now rewrite app_nil_r. }
  assert (Fin : direct (Net (n_l z) x' q (n_left z ++ xwritten l')) =
    Sys (x_m (n_l z)) (x_m x') (q ++ x_wbuf (x_s (n_l z)))
      ((n_left z ++ x_wbuf (x_s (n_r z))) ++ out_of SM r)).
  { unfold direct. cbn. now rewrite W1, W2, !app_assoc. }
  destruct b as [|b bs].
  - subst m1. exists [YServer SopNext], (map YS ln). split; [repeat constructor|].
    rewrite Next by reflexivity. rewrite Fin. cbn in Q. subst q. split; [reflexivity|].
    destruct Pn as [->|(e & He & Hi)].
    + left. cbn. specialize (Mu eq_refl eq_refl). lia.
    + right. exists (YS e). split; [now apply in_map|exact Hi].
  - exists [YToServer (length (b :: bs)); YServer SopNext], (YS (SlInput (b :: bs)) :: map YS ln).
    split; [repeat constructor|]. split.
    + change [YToServer (length (b :: bs)); YServer SopNext] with ([YToServer (length (b :: bs))] ++ [YServer SopNext]).
      assert (S1 : sys_run K (direct z) [YToServer (length (b :: bs))] =
        (Some (Sys (x_m (n_l z)) m1 (q ++ x_wbuf (x_s (n_l z))) (n_left z ++ x_wbuf (x_s (n_r z)))),
         [YS (SlInput (b :: bs))])).
      { cbn [sys_run sys_step server_step]. unfold direct. cbn [y_client y_server y_to_server y_to_client].
        rewrite Q, <- app_assoc. rewrite firstn_app, Nat.sub_diag, firstn_all, firstn_O, app_nil_r.
        cbn [m_enqueue server_machine] in G.
        destruct (server_enqueue_input (x_m (n_r z)) (b :: bs)) as [c1|]; [|discriminate]. injection G as ->.
        rewrite skipn_app, Nat.sub_diag, skipn_all. reflexivity. }
      rewrite (sys_run_app _ _ _ _ _ _ S1), Next by reflexivity. rewrite Fin. reflexivity.
    + right. eexists. split; [left; reflexivity|]. cbn. tauto.
Qed.

Lemma firstn_cut : forall (b : bytes) n x xs, firstn n b = x :: xs -> b = (x :: xs) ++ skipn n b.
Proof. intros b n x xs E. now rewrite <- E, firstn_skipn. Qed.

Lemma moves_follow : forall z L a z' l, reached z L -> net_calm a ->
  net_step T1 T2 CM SM fuel z a = (z', l) -> l <> [] -> follows z z'.
Proof.
  intros z L a z' l R C E Ne. pose proof (reached_good _ _ R) as G.
  pose proof (reached_good _ _ (reached_step _ _ _ _ _ R E)) as G'.
  destruct a as [a|a|n|n]; cbn [net_step net_calm] in *.
  - assert (Cj : conjures a = false) by (destruct a as [| |[[|]|]| | | |]; try reflexivity; contradiction).
    rewrite Cj in E. destruct (xstep T1 CM fuel (n_l z) a) as [x k] eqn:S.
    apply pair_equal_spec in E as [<- <-].
    destruct (calm_step _ _ _ _ _ _ _ (gd_t1 _ G) (gd_r1 _ G) C S (gd_d1 _ G')) as [->|[(H1 & H2 & H3)|H]].
    + now contradiction Ne.
    + exists [], []. split; [constructor|]. split.
      * cbn. unfold direct. cbn [n_l n_r n_left n_right]. now rewrite H1, H2, !app_assoc.
      * left. cbn. lia.
    + now apply (client_follows _ _ [] _ _ H).
  - assert (Cj : conjures a = false) by (destruct a as [| |[[|]|]| | | |]; try reflexivity; contradiction).
    rewrite Cj in E. destruct (xstep T2 SM fuel (n_r z) a) as [x k] eqn:S.
    apply pair_equal_spec in E as [<- <-].
    destruct (calm_step _ _ _ _ _ _ _ (gd_t2 _ G) (gd_r2 _ G) C S (gd_d2 _ G')) as [->|[(H1 & H2 & H3)|H]].
    + now contradiction Ne.
    + exists [], []. split; [constructor|]. split.
      * cbn. unfold direct. cbn [n_l n_r n_left n_right]. now rewrite H1, H2, !app_assoc.
      * left. cbn. lia.
    + now apply (server_follows _ _ [] _ _ H).
  - destruct (firstn n (n_right z)) as [|b bs] eqn:F; [injection E as _ <-; now contradiction Ne|].
    destruct (reading (x_f (n_r z))) eqn:Rd; [|injection E as _ <-; now contradiction Ne].
    destruct (xstep T2 SM fuel (n_r z) _) as [x k] eqn:S. apply pair_equal_spec in E as [<- <-].
    eapply server_follows; [|exact (firstn_cut _ _ _ _ F)].
    exact (read_step_called _ _ _ _ _ _ _ _ (gd_t2 _ G) (gd_r2 _ G) Rd S (gd_d2 _ G')).
  - destruct (firstn n (n_left z)) as [|b bs] eqn:F; [injection E as _ <-; now contradiction Ne|].
    destruct (reading (x_f (n_l z))) eqn:Rd; [|injection E as _ <-; now contradiction Ne].
    destruct (xstep T1 CM fuel (n_l z) _) as [x k] eqn:S. apply pair_equal_spec in E as [<- <-].
    eapply client_follows; [|exact (firstn_cut _ _ _ _ F)].
    exact (read_step_called _ _ _ _ _ _ _ _ (gd_t1 _ G) (gd_r1 _ G) Rd S (gd_d1 _ G')).
Qed.

Lemma reached_acc : forall z L, reached z L -> (0 < so_max_command_size o)%N ->
  Acc (net_moves fuel) z.
Proof.
  intros z L R Hmax. destruct (direct_ran _ _ R) as (ya & yl & Y).
  pose proof (terminates _ _ _ _ _ _ _ _ _ Y Hmax) as A.
  assert (H : forall w, progress K w (direct z) -> progress K w (direct z)) by auto.
  revert H. generalize A. generalize (direct z) at 1 3. clear A ya yl Y.
  intros y A. revert z L R. induction A as [y _ IH]. intros z L R H.
  remember (mu _ _ (n_l z) + mu _ _ (n_r z)) as n eqn:En. revert z L R H En.
  induction n as [n IHn] using lt_wf_ind. intros z L R H En.
  constructor. intros z' (a & l & Ca & E & Ne).
  pose proof (moves_follow _ _ _ _ _ R Ca E Ne) as (ya & yl & Ay & Ey & [Hm|P]).
  - eapply IHn; [|eapply reached_step; eauto| |reflexivity]; [lia|].
    intros w (wa & wl & Aw & Ew & Pw). apply H. exists (ya ++ wa), (yl ++ wl).
    split; [now apply Forall_app|]. rewrite (sys_run_app _ _ _ _ _ _ Ey), Ew. split; [reflexivity|].
    destruct Pw as (e & He & Hi). exists e. split; [apply in_or_app; now right|exact Hi].
  - eapply (IH (direct z')); [apply H; exists ya, yl; auto|eapply reached_step; eauto|auto].
Qed.

(** A state in which nothing can happen is at rest. *)
Lemma rest_or_moves : forall z L, reached z L -> at_rest z \/ exists z', net_moves fuel z' z.
Proof.
  intros z L R. pose proof (reached_good _ _ R) as G. pose proof R as (acts & E).
  apply net_projects in E as [(a1 & E1) (a2 & E2)].
  apply awaits_run in E1. apply awaits_run in E2.
  assert (M1 : x_f (n_l z) = FRead \/ exists z', net_moves fuel z' z).
  { assert (Go : forall a x k, calm a -> conjures a = false -> xstep T1 CM fuel (n_l z) a = (x, k) -> k <> [] ->
      exists z', net_moves fuel z' z).
    { intros a x k Ca Cj S Ne. eexists. exists (NLeft a), (map NL k). split; [exact Ca|].
      split; [cbn -[xstep]; rewrite Cj, S; reflexivity|]. destruct k; [now contradiction Ne|discriminate]. }
    unfold awaits in E1. destruct (x_f (n_l z)) eqn:F; auto; right.
    - destruct (sync T1 CM fuel (x_s (n_l z)) (x_m (n_l z))) as [x k] eqn:S.
      eapply (Go ANext); [exact I|reflexivity|cbn -[sync]; rewrite F, S; reflexivity|discriminate].
    - destruct (xstep T1 CM fuel (n_l z) (AWrite (Some 1))) as [x k] eqn:S.
      eapply (Go (AWrite (Some 1))); [exact I|reflexivity|exact S|].
      cbn -[sync skipn firstn] in S. rewrite F in S. cbn -[sync skipn firstn] in S.
      destruct (x_wbuf (x_s (n_l z))) as [|w ws]; [now contradiction E1|]. cbn [length Nat.leb] in S.
      destruct (skipn 1 (w :: ws)); [destruct (sync _ _ _ _ _)|]; injection S as _ <-; discriminate.
    - destruct (xstep T1 CM fuel (n_l z) (AWrite (Some 1))) as [x k] eqn:S.
      eapply (Go (AWrite (Some 1))); [exact I|reflexivity|exact S|].
      cbn -[sync skipn firstn] in S. rewrite F in S. cbn -[sync skipn firstn] in S.
      destruct (x_wbuf (x_s (n_l z))) as [|w ws]; [now contradiction E1|]. cbn [length Nat.leb] in S.
      destruct (skipn 1 (w :: ws)); injection S as _ <-; discriminate.
    - eapply (Go (AFlushed true)); [exact I|reflexivity|cbn; rewrite F; reflexivity|discriminate].
    - now contradiction (gd_d1 _ G). }
  assert (M2 : x_f (n_r z) = FRead \/ exists z', net_moves fuel z' z).
  { assert (Go : forall a x k, calm a -> conjures a = false -> xstep T2 SM fuel (n_r z) a = (x, k) -> k <> [] ->
      exists z', net_moves fuel z' z).
    { intros a x k Ca Cj S Ne. eexists. exists (NRight a), (map NR k). split; [exact Ca|].
      split; [cbn -[xstep]; rewrite Cj, S; reflexivity|]. destruct k; [now contradiction Ne|discriminate]. }
    unfold awaits in E2. destruct (x_f (n_r z)) eqn:F; auto; right.
    - destruct (sync T2 SM fuel (x_s (n_r z)) (x_m (n_r z))) as [x k] eqn:S.
      eapply (Go ANext); [exact I|reflexivity|cbn -[sync]; rewrite F, S; reflexivity|discriminate].
    - destruct (xstep T2 SM fuel (n_r z) (AWrite (Some 1))) as [x k] eqn:S.
      eapply (Go (AWrite (Some 1))); [exact I|reflexivity|exact S|].
      cbn -[sync skipn firstn] in S. rewrite F in S. cbn -[sync skipn firstn] in S.
      destruct (x_wbuf (x_s (n_r z))) as [|w ws]; [now contradiction E2|]. cbn [length Nat.leb] in S.
      destruct (skipn 1 (w :: ws)); [destruct (sync _ _ _ _ _)|]; injection S as _ <-; discriminate.
    - destruct (xstep T2 SM fuel (n_r z) (AWrite (Some 1))) as [x k] eqn:S.
      eapply (Go (AWrite (Some 1))); [exact I|reflexivity|exact S|].
      cbn -[sync skipn firstn] in S. rewrite F in S. cbn -[sync skipn firstn] in S.
      destruct (x_wbuf (x_s (n_r z))) as [|w ws]; [now contradiction E2|]. cbn [length Nat.leb] in S.
      destruct (skipn 1 (w :: ws)); injection S as _ <-; discriminate.
    - eapply (Go (AFlushed true)); [exact I|reflexivity|cbn; rewrite F; reflexivity|discriminate].
    - now contradiction (gd_d2 _ G). }
  destruct M1 as [F1|M]; [|now right]. destruct M2 as [F2|M]; [|now right].
  destruct (n_right z) as [|b bs] eqn:Qr.
  2:{ right. destruct (xstep T2 SM fuel (n_r z) (ARead (Some [b]))) as [x k] eqn:S.
      eexists. exists (NToRight 1), (map NR k). split; [exact I|].
      split; [cbn -[xstep]; rewrite Qr, F2; cbn -[xstep]; rewrite S; reflexivity|].
      cbn -[sync] in S. rewrite F2 in S. cbn -[sync] in S. destruct (sync _ _ _ _ _). injection S as _ <-. discriminate. }
  destruct (n_left z) as [|b bs] eqn:Ql.
  2:{ right. destruct (xstep T1 CM fuel (n_l z) (ARead (Some [b]))) as [x k] eqn:S.
      eexists. exists (NToLeft 1), (map NL k). split; [exact I|].
      split; [cbn -[xstep]; rewrite Ql, F1; cbn -[xstep]; rewrite S; reflexivity|].
      cbn -[sync] in S. rewrite F1 in S. cbn -[sync] in S. destruct (sync _ _ _ _ _). injection S as _ <-. discriminate. }
  left. repeat split; auto.
Qed.

Lemma rest_still : forall z : net0, at_rest z -> ~ exists z', net_moves fuel z' z.
Proof.
  intros z (R1 & R2 & F1 & F2) (z' & a & l & C & E & Ne). apply Ne.
  destruct a as [a|a|n|n]; cbn [net_step net_calm] in *.
  - destruct a as [| |r|[[|n]|]|[|]| |]; try contradiction; cbn [conjures xstep] in E; rewrite F1 in E; cbn [reading writing] in E;
      now injection E as _ <-.
  - destruct a as [| |r|[[|n]|]|[|]| |]; try contradiction; cbn [conjures xstep] in E; rewrite F2 in E; cbn [reading writing] in E;
      now injection E as _ <-.
  - rewrite R1, firstn_nil in E. now injection E as _ <-.
  - rewrite R2, firstn_nil in E. now injection E as _ <-.
Qed.

(** What the applications did is still orderly. *)
Lemma calm_no_calls : forall T M (x : xstate T M) a x' l', calm a -> xstep T M fuel x a = (x', l') ->
  forall p r, ~ In (XCall p r) l'.
Proof.
  intros T M x a x' l' C E p r.
  assert (Sy : forall (s : stream T) m y k, sync T M fuel s m = (y, k) -> ~ In (XCall p r) k).
  { intros s m y k Es Hin. apply sync_entries in Es. rewrite Forall_forall in Es. now apply Es in Hin. }
  destruct a as [| |?|[[|n]|]|[|]| |]; try contradiction; cbn [xstep] in E.
  - destruct (x_f x); try (injection E as _ <-; intros []).
    destruct (sync T M fuel (x_s x) (x_m x)) as [y k] eqn:S. injection E as _ <-. intros [H|H]; [discriminate|].
    eapply Sy; eauto.
  - destruct (writing (x_f x)); [|injection E as _ <-; intros []].
    destruct (Nat.leb _ _); [|injection E as _ <-; intros []]. cbn [x_wbuf] in E.
    destruct (skipn _ _); [destruct (x_f x)|];
      try (apply pair_equal_spec in E as [_ <-]; intros [H|[]]; discriminate).
    destruct (sync T M fuel _ (x_m x)) as [y k] eqn:S. injection E as _ <-. intros [H|H]; [discriminate|].
    eapply Sy; eauto.
  - destruct (x_f x); injection E as _ <-; intros H; try contradiction. destruct H as [H|[]]. discriminate.
Qed.

Lemma read_no_calls : forall T M (x : xstate T M) b x' l', xstep T M fuel x (ARead (Some b)) = (x', l') ->
  forall p r, ~ In (XCall p r) l'.
Proof.
  intros T M x b x' l' E p r. cbn [xstep] in E.
  destruct (reading (x_f x)); [|injection E as _ <-; intros []].
  destruct b as [|c b]; [injection E as _ <-; intros [H|[H|[]]]; discriminate|].
  destruct (sync T M fuel _ (x_m x)) as [y k] eqn:S. injection E as _ <-. intros [H|H]; [discriminate|].
  apply sync_entries in S. rewrite Forall_forall in S. now apply S in H.
Qed.

Definition no_calls (L : list (nlog CM SM)) : Prop :=
  (forall p r, ~ In (NL (XCall p r)) L) /\ (forall p r, ~ In (NR (XCall p r)) L).

Lemma step_no_calls : forall z a z' l, net_calm a -> net_step T1 T2 CM SM fuel z a = (z', l) -> no_calls l.
Proof.
  assert (Ml : forall k, (forall p r, ~ In (@XCall CM p r) k) -> no_calls (map NL k)).
  { intros k H. split; intros p r Hin; apply in_map_iff in Hin as (e & Ee & Hin); [|discriminate].
    injection Ee as ->. now apply H in Hin. }
  assert (Mr : forall k, (forall p r, ~ In (@XCall SM p r) k) -> no_calls (map NR k)).
  { intros k H. split; intros p r Hin; apply in_map_iff in Hin as (e & Ee & Hin); [discriminate|].
    injection Ee as ->. now apply H in Hin. }
  assert (Nn : no_calls []) by (split; intros p r []).
  intros z a z' l C E. destruct a as [a|a|n|n]; cbn [net_step net_calm] in *.
  - destruct (conjures a); [injection E as _ <-; exact Nn|].
    destruct (xstep T1 CM fuel (n_l z) a) as [x k] eqn:S. injection E as _ <-. apply Ml. eapply calm_no_calls; eauto.
  - destruct (conjures a); [injection E as _ <-; exact Nn|].
    destruct (xstep T2 SM fuel (n_r z) a) as [x k] eqn:S. injection E as _ <-. apply Mr. eapply calm_no_calls; eauto.
  - destruct (firstn n (n_right z)); [injection E as _ <-; exact Nn|].
    destruct (reading _); [|injection E as _ <-; exact Nn].
    destruct (xstep T2 SM fuel (n_r z) _) as [x k] eqn:S. injection E as _ <-. apply Mr. eapply read_no_calls; eauto.
  - destruct (firstn n (n_left z)); [injection E as _ <-; exact Nn|].
    destruct (reading _); [|injection E as _ <-; exact Nn].
    destruct (xstep T1 CM fuel (n_l z) _) as [x k] eqn:S. injection E as _ <-. apply Ml. eapply read_no_calls; eauto.
Qed.

Lemma run_no_calls : forall acts z z' l, Forall net_calm acts ->
  net_run T1 T2 CM SM fuel z acts = (z', l) -> no_calls l.
Proof.
  induction acts as [|a acts IH]; intros z z' l C E; cbn -[net_step] in E.
  - injection E as _ <-. split; intros p r [].
  - destruct (net_step T1 T2 CM SM fuel z a) as [z1 l1] eqn:S.
    destruct (net_run T1 T2 CM SM fuel z1 acts) as [z2 l2] eqn:E2. injection E as _ <-.
    apply step_no_calls in S; [|exact (Forall_inv C)]. apply IH in E2; [|exact (Forall_inv_tail C)].
    destruct S as [S1 S2], E2 as [H1 H2].
    split; intros p r Hin; apply in_app_or in Hin as [Hin|Hin];
      [now apply S1 in Hin|now apply H1 in Hin|now apply S2 in Hin|now apply H2 in Hin].
Qed.

Lemma app_log_app : forall L L' : list (nlog CM SM), app_log (L ++ L') = app_log L ++ app_log L'.
Proof. intros. apply flat_map_app. Qed.

Lemma quiet_app_log : forall L, no_calls L -> Forall auto_entry (app_log L) /\
  flat_map (scheduled_by o) (slogs (app_log L)) = [].
Proof.
  induction L as [|e L IH]; intros [H1 H2]; [split; [constructor|reflexivity]|].
  destruct IH as [I1 I2]; [split; intros p r Hin; [apply (H1 p r)|apply (H2 p r)]; now right|].
  change (app_log (e :: L)) with (app_entry e ++ app_log L).
  assert (A : Forall auto_entry (app_entry e) /\ flat_map (scheduled_by o) (slogs (app_entry e)) = []).
  { destruct e as [e|e]; destruct e as [p r| | | | | | |r| | |]; cbn; auto.
    - now contradiction (H1 p r); left.
    - destruct r; cbn; auto; split; auto; repeat constructor.
    - now contradiction (H2 p r); left.
    - destruct r; cbn; auto; split; auto; repeat constructor. }
  destruct A as [A1 A2]. split; [now apply Forall_app|].
  rewrite slogs_app', flat_map_app, A2, I2. reflexivity.
Qed.

Lemma calm_orderly : forall z L acts' z' L', 
  net_run T1 T2 CM SM fuel z acts' = (z', L') -> Forall net_calm acts' ->
  orderly K relaxed o gr (app_log L) -> own_roundtrips K relaxed o (app_log L) ->
  orderly K relaxed o gr (app_log (L ++ L')) /\ own_roundtrips K relaxed o (app_log (L ++ L')).
Proof.
  intros z L acts' z' L' E C O W. apply run_no_calls in E; [|exact C].
  apply quiet_app_log in E as [E1 E2]. rewrite app_log_app. split.
  - apply orderly_more; auto. rewrite E2. intros m [].
  - unfold own_roundtrips. rewrite clogs_app', ClientInv.enqueued_app, (auto_enqueued _ E1), app_nil_r.
    exact W.
Qed.

(** Every run can be continued until it is at rest. *)
Lemma net_settles : (0 < so_max_command_size o)%N -> forall z L, reached z L ->
  exists acts z' L', Forall net_calm acts /\ net_run T1 T2 CM SM fuel z acts = (z', L') /\ at_rest z'.
Proof.
  intros Hmax z L R. pose proof (reached_acc _ _ R Hmax) as A. revert L R.
  induction A as [z _ IH]. intros L R. destruct (rest_or_moves _ _ R) as [Q|(z1 & M)].
  - exists [], z, []. split; [constructor|]. split; [reflexivity|exact Q].
  - pose proof M as (a & l & C & E & _).
    destruct (IH _ M _ (reached_step _ _ _ _ _ R E)) as (acts & z2 & L2 & C2 & E2 & Q2).
    exists (a :: acts), z2, (l ++ L2). split; [now constructor|]. split; [|exact Q2].
    cbn -[net_step]. now rewrite E, E2.
Qed.
End Live.
