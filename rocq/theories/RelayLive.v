(** Client, proxy and server without TLS come to rest. *)
From Coq Require Import List NArith Bool PeanoNat Lia.
From Verif Require Import Base Types Codec Handle Receive ClientSend Client ServerSend Server
  SpecFraming SpecClient SpecServer System SpecSystem SpecSystemLive
  Stream StreamMachine SpecStream StreamProofs StreamThms StreamState Net SpecNet NetProofs NetRest NetLive
  ProxyUtil Proxy SpecProxy ProxyInv ProxyRuns Relay SpecRelay RelayProofs RelayWork.
From Verif Require ProxyProofs.
Import ListNotations.

(** *** Lexicographic order *)

Fixpoint vec (n : nat) : Type := match n with O => unit | S n => (nat * vec n)%type end.
Fixpoint lex (n : nat) : vec n -> vec n -> Prop :=
  match n with
  | O => fun _ _ => False
  | S n => fun v w => fst v < fst w \/ (fst v = fst w /\ lex n (snd v) (snd w))
  end.

Lemma lex_wf : forall n, well_founded (lex n).
Proof.
  induction n as [|n IH]; [intro v; constructor; intros w []|].
  intros [a v]. revert v. induction a as [a IHa] using (well_founded_induction Nat.lt_wf_0).
  intro v. induction v as [v IHv] using (well_founded_induction IH).
  constructor. intros [a' v'] [H|[H1 H2]]; cbn in *; [now apply IHa|]. subst a'. now apply IHv.
Qed.

(** *** One step of the proxy *)

Section Proxy.
Context (K : Codecs) (T2 T3 : tls) (fuel : nat).
Notation CM := (client_machine K).
Notation SM := (server_machine K).
Notation pst := (pstate K T2 T3).

(** What is left to do for the proxy: [q] and [w] for the server of its stream to the client,
    [p] and [b] for the client of its stream to the server; what is left to write, and the
    rest ([m], [n]). *)
Record weight : Type := Weight {
  g_q : nat; g_w : nat; g_wb : nat; g_m : nat; g_p : nat; g_b : nat; g_vb : nat; g_n : nat
}.

Definition mid (p : pst) (g : weight) : Prop :=
  match p with
  | PsGreeting c s =>
      g_q g = 0 /\ g_w g = 0 /\ g_wb g = length (x_wbuf c) /\ g_m g = 0 /\
      cpot K false (x_m s) (g_p g) (g_b g) /\ g_vb g = length (x_wbuf (x_s s)) /\ g_n g = mu T3 CM s
  | PsLoop c s =>
      spot K proxy_soptions (x_m c) (g_q g) (g_w g) /\ g_wb g = length (x_wbuf (x_s c)) /\ g_m g = mu T2 SM c /\
      cpot K false (x_m s) (g_p g) (g_b g) /\ g_vb g = length (x_wbuf (x_s s)) /\ g_n g = mu T3 CM s
  | PsEnd _ => g = Weight 0 0 0 0 0 0 0 0
  end.

(** After a step at the stream to the client that was given [k] bytes and wrote [l]. *)
Definition below_client (k : nat) (l : list (plog K)) (g g' : weight) : Prop :=
  length (xwritten (at_server l)) + g_vb g' <= g_vb g /\ g_b g' <= g_b g /\
  (g_q g' < g_q g + 3 * k \/
   (k = 0 /\ g_q g' <= g_q g /\ g_p g' <= g_p g /\ g_w g' < g_w g) \/
   (k = 0 /\ g_q g' <= g_q g /\ g_p g' <= g_p g /\ g_w g' <= g_w g /\
    length (xwritten (at_client l)) + g_wb g' <= g_wb g /\ g_m g' + g_n g' < g_m g + g_n g)).
(** The same for the stream to the server. *)
Definition below_server (k : nat) (l : list (plog K)) (g g' : weight) : Prop :=
  length (xwritten (at_client l)) + g_wb g' <= g_wb g /\ g_q g' <= g_q g /\
  (g_p g' < g_p g \/
   (g_p g' <= g_p g /\ length (xwritten (at_server l)) + g_vb g' <= g_vb g /\ g_b g' < g_b g + 2 * k) \/
   (k = 0 /\ g_p g' <= g_p g /\ length (xwritten (at_server l)) + g_vb g' <= g_vb g /\ g_b g' <= g_b g /\
    g_w g' <= g_w g /\ g_m g' + g_n g' < g_m g + g_n g)).

Lemma at_both_client : forall (lx : list (xlog SM)) (l2 : list (xlog CM)) k,
  at_client (map (@PlClient K) lx ++ map PlServer l2 ++ k) = lx ++ at_client k /\
  at_server (map (@PlClient K) lx ++ map PlServer l2 ++ k) = l2 ++ at_server k.
Proof.
  intros. now rewrite !at_client_app, !at_server_app, at_client_map, at_client_other, at_server_map, at_server_other.
Qed.
Lemma at_both_server : forall (lx : list (xlog CM)) (l2 : list (xlog SM)) k,
  at_server (map (@PlServer K) lx ++ map PlClient l2 ++ k) = lx ++ at_server k /\
  at_client (map (@PlServer K) lx ++ map PlClient l2 ++ k) = l2 ++ at_client k.
Proof.
  intros. now rewrite !at_client_app, !at_server_app, at_client_map, at_client_other, at_server_map, at_server_other.
Qed.

Lemma client_side_weight : forall c s a p l g c1 lx b,
  mid (PsLoop c s) g -> lives s -> xstep T2 SM fuel c (io_act SM a) = (c1, lx) -> lives c1 ->
  moved T2 SM c c1 b lx (returned lx) ->
  client_side K T2 T3 fuel c s a = (p, l) ->
  exists g', mid p g' /\ below_client (length b) l g g'.
Proof.
  intros c s a p l g c1 lx b (Hs & Hwb & Hm & Hc & Hvb & Hn) Ls X Lc Mv E. unfold client_side in E. rewrite X in E.
  destruct (server_moved K T2 proxy_soptions c c1 b lx _ _ _ eq_refl Hs Mv) as (q' & w' & Hs' & D).
  assert (Dd : is_dead (x_f c1) = false) by (unfold lives in Lc; destruct (x_f c1); try reflexivity; now contradiction Lc).
  rewrite Dd in E. unfold wire in D. unfold below_client.
  destruct (returned lx) as [r|] eqn:Rt.
  2:{ apply pair_equal_spec in E as [<- <-].
      exists (Weight q' w' (length (x_wbuf (x_s c1))) (mu T2 SM c1) (g_p g) (g_b g) (g_vb g) (g_n g)).
      split; [cbn; auto 10|]. rewrite at_client_map, at_server_other. cbn [g_q g_w g_wb g_m g_p g_b g_vb g_n xwritten length].
      split; [lia|]. split; [lia|].
      destruct D as [D|[(-> & D1 & D2 & _)|(-> & D1 & D2 & D3 & D4 & _)]]; [now left| |]; cbn [length]; lia. }
  destruct (xstep T3 CM fuel s ACancel) as [s1 l2] eqn:C.
  apply ProxyProofs.cancel_step in C. destruct C as (Cs & Cm & _ & Cl).
  assert (W2 : xwritten l2 = []) by (destruct Cl; subst l2; reflexivity).
  assert (Dr : q' < g_q g + 3 * length b \/
    (length b = 0 /\ q' <= g_q g /\ w' < g_w g /\ handle_client_event K r = RxContinue)).
  { destruct D as [D|[(-> & D1 & D2 & D3)|(-> & _ & _ & _ & _ & D)]]; [now left| |discriminate].
    right. repeat split; auto. destruct r as [[]| | | | |]; try contradiction; try discriminate D3; reflexivity. }
  assert (End : forall why k, length (xwritten (at_server k)) = 0 ->
    (PsEnd why, map PlClient lx ++ map PlServer l2 ++ k) = (p, l) ->
    exists g', mid p g' /\ below_client (length b) l g g').
  { intros why k Hk F. apply pair_equal_spec in F as [<- <-]. exists (Weight 0 0 0 0 0 0 0 0).
    split; [reflexivity|]. unfold below_client. destruct (at_both_client lx l2 k) as [-> ->].
    rewrite xwritten_app, W2. cbn [g_q g_w g_wb g_m g_p g_b g_vb g_n app]. rewrite Hk.
    split; [lia|]. split; [lia|]. destruct Dr as [Dr|(Dr1 & Dr2 & Dr3 & _)]; [left|right; left]; lia. }
  destruct (handle_client_event K r) as [| |o u] eqn:Hr.
  - rewrite <- app_assoc in E. now apply End in E.
  - apply pair_equal_spec in E as [<- <-].
    exists (Weight q' w' (length (x_wbuf (x_s c1))) (mu T2 SM c1) (g_p g) (g_b g) (g_vb g) (mu T3 CM s1)).
    split; [cbn; rewrite Cm, Cs; auto 10|].
    destruct (at_both_client lx l2 []) as [P1 P2]. rewrite !app_nil_r in P1, P2. rewrite P1, P2, W2.
    cbn [g_q g_w g_wb g_m g_p g_b g_vb g_n length]. split; [lia|]. split; [lia|].
    destruct Dr as [Dr|(Dr1 & Dr2 & Dr3 & _)]; [left|right; left]; lia.
  - destruct Dr as [Dr|(_ & _ & _ & Dr)]; [|discriminate].
    destruct (m_call CM (x_m s1) o) as [[m e]|] eqn:CL.
    + destruct (u && c_call_failed e).
      * rewrite <- !app_assoc in E. now apply End in E.
      * apply pair_equal_spec in E as [<- <-]. rewrite Cm in CL.
        destruct (cpot_call K false _ _ _ _ _ _ Hc CL) as (p' & Hc').
        exists (Weight q' w' (length (x_wbuf (x_s c1))) (mu T2 SM c1) p' (g_b g) (g_vb g)
          (mu T3 CM (@XState T3 CM (x_s s1) m (x_f s1)))).
        split; [cbn; rewrite Cs; auto 10|]. rewrite <- app_assoc.
        destruct (at_both_client lx l2 [PlServer (@XCall CM o e)]) as [-> ->].
        rewrite xwritten_app, W2. cbn [g_q g_w g_wb g_m g_p g_b g_vb g_n length at_server xwritten app].
        split; [lia|]. split; [lia|]. now left.
    + rewrite <- !app_assoc in E. now apply End in E.
Qed.

Lemma server_side_weight : forall c s a p l g s1 lx b,
  mid (PsLoop c s) g -> xstep T3 CM fuel s (io_act CM a) = (s1, lx) -> lives s1 ->
  moved T3 CM s s1 b lx (returned lx) ->
  server_side K T2 T3 fuel c s a = (p, l) ->
  exists g', mid p g' /\ below_server (length b) l g g'.
Proof.
  intros c s a p l g s1 lx b (Hs & Hwb & Hm & Hc & Hvb & Hn) X Lc Mv E. unfold server_side in E. rewrite X in E.
  destruct (client_moved K T3 false s s1 b lx _ _ _ Hc Mv) as (p' & b' & Hc' & D).
  assert (Dd : is_dead (x_f s1) = false) by (unfold lives in Lc; destruct (x_f s1); try reflexivity; now contradiction Lc).
  rewrite Dd in E. unfold wire in D. rewrite <- Hvb in D. unfold below_server.
  destruct (returned lx) as [r|] eqn:Rt.
  2:{ apply pair_equal_spec in E as [<- <-].
      exists (Weight (g_q g) (g_w g) (g_wb g) (g_m g) p' b' (length (x_wbuf (x_s s1))) (mu T3 CM s1)).
      split; [cbn; auto 10|]. rewrite at_server_map, at_client_other. cbn [g_q g_w g_wb g_m g_p g_b g_vb g_n xwritten length].
      split; [lia|]. split; [lia|].
      destruct D as [D|[(D1 & D2 & D3)|(-> & D1 & D2 & D3 & D4 & _)]]; [now left| |]; cbn [length]; lia. }
  assert (Dr : p' < g_p g \/
    (p' <= g_p g /\ length (xwritten lx) + length (x_wbuf (x_s s1)) <= g_vb g /\ b' < g_b g + 2 * length b)).
  { destruct D as [D|[(D1 & D2 & D3)|(_ & _ & _ & _ & _ & D)]]; [now left| |discriminate]. right. lia. }
  destruct (xstep T2 SM fuel c ACancel) as [c1 l2] eqn:C.
  apply ProxyProofs.cancel_step in C. destruct C as (Cs & Cm & _ & Cl).
  assert (W2 : xwritten l2 = []) by (destruct Cl; subst l2; reflexivity).
  assert (End : forall why k, xwritten (at_client k) = [] -> xwritten (at_server k) = [] ->
    (PsEnd why, map PlServer lx ++ map PlClient l2 ++ k) = (p, l) ->
    exists g', mid p g' /\ below_server (length b) l g g').
  { intros why k Hk Hk' F. apply pair_equal_spec in F as [<- <-]. exists (Weight 0 0 0 0 0 0 0 0).
    split; [reflexivity|]. unfold below_server. destruct (at_both_server lx l2 k) as [-> ->].
    rewrite !xwritten_app, W2, Hk, Hk'. rewrite !app_nil_r. cbn [g_q g_w g_wb g_m g_p g_b g_vb g_n app length].
    split; [lia|]. split; [lia|]. lia. }
  destruct (handle_server_event K r) as [| |o u] eqn:Hr.
  - rewrite <- app_assoc in E. now apply End in E.
  - apply pair_equal_spec in E as [<- <-].
    exists (Weight (g_q g) (g_w g) (g_wb g) (mu T2 SM c1) p' b' (length (x_wbuf (x_s s1))) (mu T3 CM s1)).
    split; [cbn; rewrite Cm, Cs; auto 10|].
    destruct (at_both_server lx l2 []) as [P1 P2]. rewrite !app_nil_r in P1, P2. rewrite P1, P2, W2.
    cbn [g_q g_w g_wb g_m g_p g_b g_vb g_n length]. split; [lia|]. split; [lia|]. lia.
  - destruct (m_call SM (x_m c1) o) as [[m e]|] eqn:CL.
    + destruct (u && s_call_failed e).
      * rewrite <- !app_assoc in E. now apply End in E.
      * apply pair_equal_spec in E as [<- <-]. rewrite Cm in CL.
        destruct (spot_call K proxy_soptions _ _ _ _ _ _ Hs CL) as (w' & Hs').
        exists (Weight (g_q g) w' (g_wb g) (mu T2 SM (@XState T2 SM (x_s c1) m (x_f c1))) p' b' (length (x_wbuf (x_s s1)))
          (mu T3 CM s1)).
        split; [cbn; rewrite Cs; auto 10|]. rewrite <- app_assoc.
        destruct (at_both_server lx l2 [PlClient (@XCall SM o e)]) as [-> ->].
        rewrite !xwritten_app, W2. cbn [g_q g_w g_wb g_m g_p g_b g_vb g_n length at_server at_client xwritten app].
        rewrite ?app_nil_r. split; [lia|]. split; [lia|]. lia.
    + rewrite <- !app_assoc in E. now apply End in E.
Qed.

Lemma greeting_side_weight : forall gp c s a p l g s1 lx b,
  mid (PsGreeting c s) g -> xstep T3 CM fuel s (io_act CM a) = (s1, lx) -> lives s1 ->
  moved T3 CM s s1 b lx (returned lx) ->
  greeting_side K T2 T3 fuel gp c s a = (p, l) ->
  exists g', mid p g' /\ below_server (length b) l g g'.
Proof.
  intros gp c s a p l g s1 lx b (Hq & Hw & Hwb & Hm & Hc & Hvb & Hn) X Lc Mv E. unfold greeting_side in E. rewrite X in E.
  destruct (client_moved K T3 false s s1 b lx _ _ _ Hc Mv) as (p' & b' & Hc' & D).
  assert (Dd : is_dead (x_f s1) = false) by (unfold lives in Lc; destruct (x_f s1); try reflexivity; now contradiction Lc).
  rewrite Dd in E. unfold wire in D. rewrite <- Hvb in D. unfold below_server.
  destruct (returned lx) as [r|] eqn:Rt.
  2:{ apply pair_equal_spec in E as [<- <-].
      exists (Weight (g_q g) (g_w g) (g_wb g) (g_m g) p' b' (length (x_wbuf (x_s s1))) (mu T3 CM s1)).
      split; [cbn; auto 10|]. rewrite at_server_map, at_client_other. cbn [g_q g_w g_wb g_m g_p g_b g_vb g_n xwritten length].
      split; [lia|]. split; [lia|].
      destruct D as [D|[(D1 & D2 & D3)|(-> & D1 & D2 & D3 & D4 & _)]]; [now left| |]; cbn [length]; lia. }
  assert (Dr : p' < g_p g \/
    (p' <= g_p g /\ length (xwritten lx) + length (x_wbuf (x_s s1)) <= g_vb g /\ b' < g_b g + 2 * length b)).
  { destruct D as [D|[(D1 & D2 & D3)|(_ & _ & _ & _ & _ & D)]]; [now left| |discriminate]. right. lia. }
  assert (End : (PsEnd PeAborted, map (@PlServer K) lx ++ [PlAbort]) = (p, l) ->
    exists g', mid p g' /\ below_server (length b) l g g').
  { intro F. apply pair_equal_spec in F as [<- <-]. exists (Weight 0 0 0 0 0 0 0 0).
    split; [reflexivity|]. unfold below_server. destruct (at_both_server lx [] [PlAbort]) as [P1 P2].
    cbn [map app] in P1, P2. rewrite P1, P2. cbn [at_client at_server xwritten length]. rewrite app_nil_r.
    cbn [g_q g_w g_wb g_m g_p g_b g_vb g_n app length].
    split; [lia|]. split; [lia|]. lia. }
  destruct r as [e| | | | |]; auto. destruct e; auto.
  apply pair_equal_spec in E as [<- <-].
  match goal with |- context [server_new _ _ ?g1] => set (gr := g1) end.
  exists (Weight 0 2 (g_wb g) (mu T2 SM (@XState T2 SM c (server_new gp proxy_soptions gr) FIdle)) p' b'
    (length (x_wbuf (x_s s1))) (mu T3 CM s1)).
  split; [cbn; split; [apply spot_new|auto 10]|].
  rewrite at_server_map, at_client_other. cbn [g_q g_w g_wb g_m g_p g_b g_vb g_n xwritten length].
  split; [lia|]. split; [lia|]. lia.
Qed.
End Proxy.

(** *** The whole *)

Section Live.
Context (K : Codecs) (relaxed : bool) (o : soptions) (gc gp gq gs : hgen) (gr : greeting)
  (T1 T2 T3 T4 : tls) (fuel : nat).
Notation CM := (client_machine K).
Notation SM := (server_machine K).
Notation rel := (relay K T1 T2 T3 T4).
Notation step := (relay_step K T1 T2 T3 T4 fuel gp).
Notation run := (relay_run K T1 T2 T3 T4 fuel gp).
Hypothesis NT : no_trailing K relaxed.
Hypothesis NP : no_trailing K false.
Hypothesis SL : single_lines K.
Hypothesis SP : sno_trailing K proxy_soptions.
Hypothesis ST : sno_trailing K o.
Notation z0 := (relay_new K T1 T2 T3 T4 (stream_insecure T1) (stream_insecure T2)
  (stream_insecure T3) (stream_insecure T4) relaxed o gc gq gs gr).

Definition rreached (z : rel) (L : list (rlog K)) : Prop := exists acts, run z0 acts = (z, L).
Notation flegs := (legs K T1 T2 T3 T4 fuel (stream_insecure T1) (stream_insecure T2)
  (stream_insecure T3) (stream_insecure T4) relaxed o gc gp gq gs gr).
Notation ffran := (fran K T1 T2 fuel (stream_insecure T1) (stream_insecure T2) relaxed gc gp).
Notation fbran := (bran K T3 T4 fuel (stream_insecure T3) (stream_insecure T4) o gq gs gr).

Lemma rreached_step : forall z L a z' l, rreached z L -> step z a = (z', l) -> rreached z' (L ++ l).
Proof.
  intros z L a z' l (acts & E) S. exists (acts ++ [a]). rewrite relay_run_app, E. cbn -[relay_step].
  rewrite S. now rewrite app_nil_r.
Qed.

Lemma rreached_legs : forall z L, rreached z L -> flegs z L.
Proof. intros z L (acts & E). eapply relay_legs; eauto. Qed.

Lemma fran_good : forall g n L, ffran g n L -> good K T1 T2 n.
Proof.
  intros g n L H. apply (reached_good K relaxed proxy_soptions gc gp (filter_greeting g) T1 T2 fuel NT SL SP n L). exact H.
Qed.
Lemma bran_good : forall n L, fbran n L -> good K T3 T4 n.
Proof.
  intros n L H. apply (reached_good K false o gq gs gr T3 T4 fuel NP SL ST n L). exact H.
Qed.

(** A stream without TLS that did not stop. *)
Definition tidy {T M} (x : xstate T M) : Prop := x_tls (x_s x) = None /\ x_rbuf (x_s x) = [] /\ x_f x <> FDead.

Lemma good_left : forall T T' (n : net T T' CM SM), good K T T' n -> tidy (n_l n).
Proof. intros T T' n []. now repeat split. Qed.
Lemma good_right : forall T T' (n : net T T' CM SM), good K T T' n -> tidy (n_r n).
Proof. intros T T' n []. now repeat split. Qed.

Lemma ends_tidy : forall z L, flegs z L -> tidy (r_client z) /\ tidy (r_server z).
Proof.
  intros z L H. unfold legs in H.
  assert (B : (exists s, fbran (bnet K T1 T2 T3 T4 z s) (back L)) /\ (exists g c, ffran g (fnet K T1 T2 T3 T4 z c) (front L))).
  { destruct (r_proxy z) as [c s|c s|why].
    - destruct H as (_ & _ & _ & _ & H1 & H2). split; [exists s; exact H2|]. exists gr. eexists. exact (H1 gr).
    - destruct H as (_ & _ & (g & _ & H1) & H2). split; [exists s; exact H2|]. exists g, c. exact H1.
    - destruct H as ([(_ & H1)|(g & c & _ & H1)] & H2); (split; [exact H2|]).
      + destruct (H1 gr) as [c H3]. exists gr, c. exact H3.
      + exists g, c. exact H1. }
  destruct B as ((s & B) & (g & c & F)). split.
  - apply fran_good in F. exact (good_left _ _ _ F).
  - apply bran_good in B. exact (good_right _ _ _ B).
Qed.

Lemma rreached_tidy : forall z L, rreached z L -> tidy (r_client z) /\ tidy (r_server z).
Proof. intros z L H. apply (ends_tidy z L). now apply rreached_legs. Qed.

(** The proxy was given [b] at its stream to the client ([false]) or to the server. *)
Definition given_by (b : bytes) (a : io) : Prop :=
  (b = [] /\ io_calm a) \/ (b <> [] /\ a = IoRead (Some b)).

Lemma pstep_client : forall z L a b n p l g, flegs z L -> mid K T2 T3 (r_proxy z) g ->
  given_by b a -> (b <> [] -> firstn n (r_in z) = b /\ proxy_reading K T2 T3 (r_proxy z) false = true) ->
  pstep K T2 T3 fuel gp (r_proxy z) (false, a) = (p, l) -> l <> [] ->
  exists g', mid K T2 T3 p g' /\ below_client K (length b) l g g'.
Proof.
  intros z L a b n p l g Lg Hm Gv Rd E Ne. unfold legs in Lg.
  destruct (r_proxy z) as [c s|c s|why] eqn:Ep; cbn [pstep] in E;
    try (apply pair_equal_spec in E as [_ <-]; now contradiction Ne).
  destruct Lg as (Lc & Ls & (gg & _ & F) & B). pose proof (good_right _ _ _ (fran_good _ _ _ F)) as (G1 & G2 & G3).
  unfold fnet in *. cbn [n_r] in *.
  destruct (xstep T2 SM fuel c (io_act SM a)) as [c1 lx] eqn:X.
  assert (Nx : lx <> []).
  { intros ->. apply Ne. clear - E X G3. unfold client_side in E. rewrite X in E. cbn in E.
    destruct (is_dead (x_f c1)); now apply pair_equal_spec in E as [_ <-]. }
  assert (Q : lives c1 /\ moved T2 SM c c1 b lx (returned lx)).
  { destruct Gv as [(-> & Ca)|(Nb & ->)].
    - assert (Co : own (io_act SM a) /\ SpecNet.calm (io_act SM a)).
      { destruct a as [|r|[[|k]|]]; try contradiction; split; try exact I; reflexivity. }
      destruct Co as [Co Cc].
      pose proof (nran_right1 T1 T2 CM SM fuel _ _ _ _ _ _ F Co X) as F'.
      pose proof (good_right _ _ _ (fran_good _ _ _ F')) as (_ & _ & G4). cbn in G4. split; [exact G4|].
      destruct (io_moved T2 SM fuel c _ c1 lx G1 G2 Cc X G4) as [->|M]; [now contradiction Nx|].
      destruct a as [|r|[[|k]|]]; try contradiction; exact M.
    - destruct (Rd Nb) as [R1 R2]. cbn in R2. destruct b as [|b bs]; [now contradiction Nb|].
      pose proof (nran_to_right T1 T2 CM SM fuel _ _ _ _ _ _ _ _ F R1 R2 X) as F'.
      pose proof (good_right _ _ _ (fran_good _ _ _ F')) as (_ & _ & G4). cbn in G4. split; [exact G4|].
      exact (read_moved T2 SM fuel c _ _ c1 lx G1 G2 R2 X G4). }
  destruct Q as [Q1 Q2]. eapply client_side_weight; eauto.
Qed.

Lemma pstep_server : forall z L a b n p l g, flegs z L -> mid K T2 T3 (r_proxy z) g ->
  given_by b a -> (b <> [] -> firstn n (r_down z) = b /\ proxy_reading K T2 T3 (r_proxy z) true = true) ->
  pstep K T2 T3 fuel gp (r_proxy z) (true, a) = (p, l) -> l <> [] ->
  exists g', mid K T2 T3 p g' /\ below_server K (length b) l g g'.
Proof.
  intros z L a b n p l g Lg Hm Gv Rd E Ne. unfold legs in Lg.
  assert (Core : forall s, fbran (bnet K T1 T2 T3 T4 z s) (back L) ->
    (b <> [] -> reading (x_f s) = true) ->
    forall s1 lx, xstep T3 CM fuel s (io_act CM a) = (s1, lx) -> lx <> [] ->
    lives s1 /\ moved T3 CM s s1 b lx (returned lx)).
  { intros s B Rs s1 lx X Nx. pose proof (good_left _ _ _ (bran_good _ _ B)) as (G1 & G2 & G3).
    unfold bnet in *. cbn [n_l] in *.
    destruct Gv as [(-> & Ca)|(Nb & ->)].
    - assert (Co : own (io_act CM a) /\ SpecNet.calm (io_act CM a)).
      { destruct a as [|r|[[|k]|]]; try contradiction; split; try exact I; reflexivity. }
      destruct Co as [Co Cc].
      pose proof (nran_left1 T3 T4 CM SM fuel _ _ _ _ _ _ B Co X) as F'.
      pose proof (good_left _ _ _ (bran_good _ _ F')) as (_ & _ & G4). cbn in G4. split; [exact G4|].
      destruct (io_moved T3 CM fuel s _ s1 lx G1 G2 Cc X G4) as [->|M]; [now contradiction Nx|].
      destruct a as [|r|[[|k]|]]; try contradiction; exact M.
    - destruct (Rd Nb) as [R1 _]. pose proof (Rs Nb) as R2. destruct b as [|b bs]; [now contradiction Nb|].
      pose proof (nran_to_left T3 T4 CM SM fuel _ _ _ _ _ _ _ _ B R1 R2 X) as F'.
      pose proof (good_left _ _ _ (bran_good _ _ F')) as (_ & _ & G4). cbn in G4. split; [exact G4|].
      exact (read_moved T3 CM fuel s _ _ s1 lx G1 G2 R2 X G4). }
  destruct (r_proxy z) as [c s|c s|why] eqn:Ep; cbn [pstep] in E;
    try (apply pair_equal_spec in E as [_ <-]; now contradiction Ne).
  - destruct Lg as (_ & _ & _ & _ & _ & B).
    destruct (xstep T3 CM fuel s (io_act CM a)) as [s1 lx] eqn:X.
    assert (Nx : lx <> []).
    { intros ->. apply Ne. clear - E X. unfold greeting_side in E. rewrite X in E. cbn in E.
      destruct (is_dead (x_f s1)); now apply pair_equal_spec in E as [_ <-]. }
    destruct (Core s B) with (s1 := s1) (lx := lx) as [Q1 Q2]; auto; [intro Nb; now destruct (Rd Nb)|].
    eapply greeting_side_weight; eauto.
  - destruct Lg as (_ & _ & _ & B).
    destruct (xstep T3 CM fuel s (io_act CM a)) as [s1 lx] eqn:X.
    assert (Nx : lx <> []).
    { intros ->. apply Ne. clear - E X. unfold server_side in E. rewrite X in E. cbn in E.
      destruct (is_dead (x_f s1)); now apply pair_equal_spec in E as [_ <-]. }
    destruct (Core s B) with (s1 := s1) (lx := lx) as [Q1 Q2]; auto; [intro Nb; now destruct (Rd Nb)|].
    eapply server_side_weight; eauto.
Qed.

Hypothesis Hmax : (0 < so_max_command_size o)%N.

Definition weighs (z : rel) (v : vec 9) : Prop :=
  exists p1 b1 q4 w4 g,
    cpot K relaxed (x_m (r_client z)) p1 b1 /\ spot K o (x_m (r_server z)) q4 w4 /\
    mid K T2 T3 (r_proxy z) g /\
    v = (p1, (3 * (length (r_in z) + length (x_wbuf (x_s (r_client z)))) + g_q g,
        (g_p g, (3 * (length (r_up z) + g_vb g) + q4, (w4,
        (2 * (length (r_down z) + length (x_wbuf (x_s (r_server z)))) + g_b g, (g_w g,
        (2 * (length (r_out z) + g_wb g) + b1,
        (mu T1 CM (r_client z) + g_m g + g_n g + mu T4 SM (r_server z), tt))))))))).

Lemma weighs_new : exists v, weighs z0 v.
Proof.
  eexists. exists 0, 0, 0, 2, (Weight 0 0 0 0 0 0 0 1). split; [apply cpot_new|]. split; [apply spot_new|].
  split; [|reflexivity]. cbn. repeat split; auto. apply cpot_new.
Qed.

Lemma cut_length : forall (q : bytes) n b, firstn n q = b -> length q = length b + length (skipn n q).
Proof. intros q n b <-. rewrite <- app_length. now rewrite firstn_skipn. Qed.

Lemma map_nil_neg : forall A B (f : A -> B) l, map f l <> [] -> l <> [].
Proof. intros A B f l H ->. now apply H. Qed.

Lemma relay_weighs : forall z L a z' l v, rreached z L -> weighs z v -> relay_calm a ->
  step z a = (z', l) -> l <> [] -> exists v', weighs z' v' /\ lex 9 v' v.
Proof.
  intros z L a z' l v R (p1 & b1 & q4 & w4 & g & HC & HS & HM & ->) Ca E Ne.
  pose proof (rreached_tidy _ _ R) as [(C1 & C2 & C3) (S1 & S2 & S3)].
  pose proof (rreached_tidy _ _ (rreached_step _ _ _ _ _ R E)) as [(_ & _ & C3') (_ & _ & S3')].
  pose proof (rreached_legs _ _ R) as Lg.
  assert (Lex : forall b x k n, moved T1 CM (r_client z) x b k n ->
    forall inn out, length inn = length (r_in z) + length (xwritten k) ->
    length (r_out z) = length b + length out ->
    exists v', weighs (Relay x (r_proxy z) (r_server z) inn out (r_up z) (r_down z)) v' /\
      lex 9 v' (p1, (3 * (length (r_in z) + length (x_wbuf (x_s (r_client z)))) + g_q g,
        (g_p g, (3 * (length (r_up z) + g_vb g) + q4, (w4,
        (2 * (length (r_down z) + length (x_wbuf (x_s (r_server z)))) + g_b g, (g_w g,
        (2 * (length (r_out z) + g_wb g) + b1,
        (mu T1 CM (r_client z) + g_m g + g_n g + mu T4 SM (r_server z), tt)))))))))).
  { intros b x k n M inn out Hin Hout. destruct (client_moved K T1 relaxed _ _ _ _ _ _ _ HC M) as (p' & b' & HC' & D).
    eexists. split; [exists p', b', q4, w4, g; split; [exact HC'|]; split; [exact HS|]; split; [exact HM|reflexivity]|].
    unfold wire in D. cbn [lex fst snd r_client r_server r_in r_out r_up r_down].
    destruct D as [D|[(D1 & D2 & D3)|(-> & D1 & D2 & D3 & D4 & _)]]; [now left| |]; cbn [length] in *; lia. }
  assert (Rex : forall b x k n, moved T4 SM (r_server z) x b k n ->
    forall up down, length down = length (r_down z) + length (xwritten k) ->
    length (r_up z) = length b + length up ->
    exists v', weighs (Relay (r_client z) (r_proxy z) x (r_in z) (r_out z) up down) v' /\
      lex 9 v' (p1, (3 * (length (r_in z) + length (x_wbuf (x_s (r_client z)))) + g_q g,
        (g_p g, (3 * (length (r_up z) + g_vb g) + q4, (w4,
        (2 * (length (r_down z) + length (x_wbuf (x_s (r_server z)))) + g_b g, (g_w g,
        (2 * (length (r_out z) + g_wb g) + b1,
        (mu T1 CM (r_client z) + g_m g + g_n g + mu T4 SM (r_server z), tt)))))))))).
  { intros b x k n M up down Hdn Hup. destruct (server_moved K T4 o _ _ _ _ _ _ _ Hmax HS M) as (q' & w' & HS' & D).
    eexists. split; [exists p1, b1, q', w', g; split; [exact HC|]; split; [exact HS'|]; split; [exact HM|reflexivity]|].
    unfold wire in D. cbn [lex fst snd r_client r_server r_in r_out r_up r_down].
    destruct D as [D|[(-> & D1 & D2 & _)|(-> & D1 & D2 & D3 & D4 & _)]]; cbn [length] in *; lia. }
  assert (Pc : forall a b n p k, given_by b a ->
    (b <> [] -> firstn n (r_in z) = b /\ proxy_reading K T2 T3 (r_proxy z) false = true) ->
    pstep K T2 T3 fuel gp (r_proxy z) (false, a) = (p, k) -> k <> [] ->
    forall inn, length (r_in z) = length b + length inn ->
    exists v', weighs (Relay (r_client z) p (r_server z) inn (r_out z ++ xwritten (at_client k))
        (r_up z ++ xwritten (at_server k)) (r_down z)) v' /\
      lex 9 v' (p1, (3 * (length (r_in z) + length (x_wbuf (x_s (r_client z)))) + g_q g,
        (g_p g, (3 * (length (r_up z) + g_vb g) + q4, (w4,
        (2 * (length (r_down z) + length (x_wbuf (x_s (r_server z)))) + g_b g, (g_w g,
        (2 * (length (r_out z) + g_wb g) + b1,
        (mu T1 CM (r_client z) + g_m g + g_n g + mu T4 SM (r_server z), tt)))))))))).
  { intros a0 b n p k Gv Rd X Nk inn Hin.
    destruct (pstep_client _ _ _ _ _ _ _ _ Lg HM Gv Rd X Nk) as (g' & HM' & D1 & D2 & D).
    eexists. split; [exists p1, b1, q4, w4, g'; split; [exact HC|]; split; [exact HS|]; split; [exact HM'|reflexivity]|].
    cbn [lex fst snd r_client r_server r_in r_out r_up r_down]. rewrite !app_length. lia. }
  assert (Ps : forall a b n p k, given_by b a ->
    (b <> [] -> firstn n (r_down z) = b /\ proxy_reading K T2 T3 (r_proxy z) true = true) ->
    pstep K T2 T3 fuel gp (r_proxy z) (true, a) = (p, k) -> k <> [] ->
    forall dn, length (r_down z) = length b + length dn ->
    exists v', weighs (Relay (r_client z) p (r_server z) (r_in z) (r_out z ++ xwritten (at_client k))
        (r_up z ++ xwritten (at_server k)) dn) v' /\
      lex 9 v' (p1, (3 * (length (r_in z) + length (x_wbuf (x_s (r_client z)))) + g_q g,
        (g_p g, (3 * (length (r_up z) + g_vb g) + q4, (w4,
        (2 * (length (r_down z) + length (x_wbuf (x_s (r_server z)))) + g_b g, (g_w g,
        (2 * (length (r_out z) + g_wb g) + b1,
        (mu T1 CM (r_client z) + g_m g + g_n g + mu T4 SM (r_server z), tt)))))))))).
  { intros a0 b n p k Gv Rd X Nk dn Hdn.
    destruct (pstep_server _ _ _ _ _ _ _ _ Lg HM Gv Rd X Nk) as (g' & HM' & D1 & D2 & D).
    eexists. split; [exists p1, b1, q4, w4, g'; split; [exact HC|]; split; [exact HS|]; split; [exact HM'|reflexivity]|].
    cbn [lex fst snd r_client r_server r_in r_out r_up r_down]. rewrite !app_length. lia. }
  destruct a as [a|a|a|n|n|n|n]; cbn -[xstep pstep proxy_acts] in E; cbn [relay_calm] in Ca.
  - assert (Cj : conjures a = false) by (destruct a as [| |[[|]|]| | | |]; try reflexivity; contradiction).
    rewrite Cj in E. destruct (xstep T1 CM fuel (r_client z) a) as [x k] eqn:X.
    apply pair_equal_spec in E as [<- <-]. apply map_nil_neg in Ne. cbn [r_client] in C3'.
    destruct (io_moved T1 CM fuel _ _ _ _ C1 C2 Ca X C3') as [->|M]; [now contradiction Ne|].
    apply (Lex _ _ _ _ M); [apply app_length|reflexivity].
  - assert (Cj : conjures a = false) by (destruct a as [| |[[|]|]| | | |]; try reflexivity; contradiction).
    rewrite Cj in E. destruct (xstep T4 SM fuel (r_server z) a) as [x k] eqn:X.
    apply pair_equal_spec in E as [<- <-]. apply map_nil_neg in Ne. cbn [r_server] in S3'.
    destruct (io_moved T4 SM fuel _ _ _ _ S1 S2 Ca X S3') as [->|M]; [now contradiction Ne|].
    apply (Rex _ _ _ _ M); [apply app_length|reflexivity].
  - destruct a as [d a]. assert (Cj : conjures (io_act SM (snd (d, a))) = false) by (destruct a as [|[[]|]|]; auto; contradiction).
    rewrite Cj in E. unfold proxy_acts in E. destruct (pstep K T2 T3 fuel gp (r_proxy z) (d, a)) as [p k] eqn:X.
    apply pair_equal_spec in E as [<- <-]. apply map_nil_neg in Ne.
    assert (Gv : given_by [] a) by now left.
    destruct d; [apply (Ps a [] 0)|apply (Pc a [] 0)]; auto; intros Nb; now contradiction Nb.
  - destruct (firstn n (r_in z)) as [|b bs] eqn:B; [apply pair_equal_spec in E as [_ <-]; now contradiction Ne|].
    destruct (proxy_reading K T2 T3 (r_proxy z) false) eqn:Rd; [|apply pair_equal_spec in E as [_ <-]; now contradiction Ne].
    unfold proxy_acts in E. cbn [r_proxy r_client r_server r_in r_out r_up r_down] in E.
    destruct (pstep K T2 T3 fuel gp (r_proxy z) (false, IoRead (Some (b :: bs)))) as [p k] eqn:X.
    apply pair_equal_spec in E as [<- <-]. apply map_nil_neg in Ne.
    apply (Pc (IoRead (Some (b :: bs))) (b :: bs) n); auto; [right; split; [discriminate|reflexivity]|].
    exact (cut_length _ _ _ B).
  - destruct (firstn n (r_out z)) as [|b bs] eqn:B; [apply pair_equal_spec in E as [_ <-]; now contradiction Ne|].
    destruct (reading (x_f (r_client z))) eqn:Rd; [|apply pair_equal_spec in E as [_ <-]; now contradiction Ne].
    destruct (xstep T1 CM fuel (r_client z) (ARead (Some (b :: bs)))) as [x k] eqn:X.
    apply pair_equal_spec in E as [<- <-]. cbn [r_client] in C3'.
    apply (Lex _ _ _ _ (read_moved T1 CM fuel _ _ _ _ _ C1 C2 Rd X C3')); [apply app_length|].
    exact (cut_length _ _ _ B).
  - destruct (firstn n (r_up z)) as [|b bs] eqn:B; [apply pair_equal_spec in E as [_ <-]; now contradiction Ne|].
    destruct (reading (x_f (r_server z))) eqn:Rd; [|apply pair_equal_spec in E as [_ <-]; now contradiction Ne].
    destruct (xstep T4 SM fuel (r_server z) (ARead (Some (b :: bs)))) as [x k] eqn:X.
    apply pair_equal_spec in E as [<- <-]. cbn [r_server] in S3'.
    apply (Rex _ _ _ _ (read_moved T4 SM fuel _ _ _ _ _ S1 S2 Rd X S3')); [apply app_length|].
    exact (cut_length _ _ _ B).
  - destruct (firstn n (r_down z)) as [|b bs] eqn:B; [apply pair_equal_spec in E as [_ <-]; now contradiction Ne|].
    destruct (proxy_reading K T2 T3 (r_proxy z) true) eqn:Rd; [|apply pair_equal_spec in E as [_ <-]; now contradiction Ne].
    unfold proxy_acts in E. cbn [r_proxy r_client r_server r_in r_out r_up r_down] in E.
    destruct (pstep K T2 T3 fuel gp (r_proxy z) (true, IoRead (Some (b :: bs)))) as [p k] eqn:X.
    apply pair_equal_spec in E as [<- <-]. apply map_nil_neg in Ne.
    apply (Ps (IoRead (Some (b :: bs))) (b :: bs) n); auto; [right; split; [discriminate|reflexivity]|].
    exact (cut_length _ _ _ B).
Qed.

Lemma leg_pots : forall T T' r oo g1 g2 g (z : net T T' CM SM) L,
  no_trailing K r -> sno_trailing K oo -> reached K r oo g1 g2 g T T' fuel z L ->
  (exists p b, cpot K r (x_m (n_l z)) p b) /\ (exists q w, spot K oo (x_m (n_r z)) q w).
Proof.
  intros T T' r oo g1 g2 g z L N1 N2 R.
  destruct (direct_ran K r oo g1 g2 g T T' fuel N1 SL N2 z L R) as (ya & yl & Y).
  apply SystemLive.yran_rel in Y as [w (R1 & R2 & _)]. cbn in R1, R2.
  split; eexists; eexists; eexists; (split; [eassumption|split; reflexivity]).
Qed.

Lemma rreached_weighs : forall z L, rreached z L -> exists v, weighs z v.
Proof.
  intros z L R. apply rreached_legs in R. unfold legs in R.
  assert (F : forall g c, ffran g (fnet K T1 T2 T3 T4 z c) (front L) ->
    (exists p b, cpot K relaxed (x_m (r_client z)) p b) /\ (exists q w, spot K proxy_soptions (x_m c) q w)).
  { intros g c H. exact (leg_pots T1 T2 relaxed proxy_soptions gc gp (filter_greeting g) _ _ NT SP H). }
  assert (B : forall s, fbran (bnet K T1 T2 T3 T4 z s) (back L) ->
    (exists p b, cpot K false (x_m s) p b) /\ (exists q w, spot K o (x_m (r_server z)) q w)).
  { intros s H. exact (leg_pots T3 T4 false o gq gs gr _ _ NP ST H). }
  unfold weighs. destruct (r_proxy z) as [c s|c s|why].
  - destruct R as (_ & _ & _ & _ & H1 & H2).
    destruct (F _ _ (H1 gr)) as ((p1 & b1 & C1) & _). destruct (B _ H2) as ((p3 & b3 & C3) & q4 & w4 & C4).
    eexists. exists p1, b1, q4, w4, (Weight 0 0 (length (x_wbuf c)) 0 p3 b3 (length (x_wbuf (x_s s))) (mu T3 CM s)).
    split; [exact C1|]. split; [exact C4|]. split; [|reflexivity]. cbn. auto 10.
  - destruct R as (_ & _ & (g & _ & H1) & H2).
    destruct (F _ _ H1) as ((p1 & b1 & C1) & q2 & w2 & C2). destruct (B _ H2) as ((p3 & b3 & C3) & q4 & w4 & C4).
    eexists. exists p1, b1, q4, w4, (Weight q2 w2 (length (x_wbuf (x_s c))) (mu T2 SM c) p3 b3 (length (x_wbuf (x_s s))) (mu T3 CM s)).
    split; [exact C1|]. split; [exact C4|]. split; [|reflexivity]. cbn. auto 10.
  - destruct R as (H1 & s & H2). destruct (B _ H2) as (_ & q4 & w4 & C4).
    assert (C : exists p b, cpot K relaxed (x_m (r_client z)) p b).
    { destruct H1 as [(_ & H1)|(g & c & _ & H1)].
      - destruct (H1 gr) as [c Hc]. now apply F in Hc.
      - now apply F in H1. }
    destruct C as (p1 & b1 & C1). eexists. exists p1, b1, q4, w4, (Weight 0 0 0 0 0 0 0 0).
    split; [exact C1|]. split; [exact C4|]. split; reflexivity.
Qed.

Lemma relay_acc : forall z L, rreached z L -> Acc (relay_moves fuel gp) z.
Proof.
  intros z L R. destruct (rreached_weighs _ _ R) as [v W]. revert z L R W.
  induction v as [v IH] using (well_founded_induction (lex_wf 9)). intros z L R W.
  constructor. intros z' (a & l & Ca & E & Ne).
  destruct (relay_weighs _ _ _ _ _ _ R W Ca E Ne) as (v' & W' & D).
  exact (IH _ D _ _ (rreached_step _ _ _ _ _ R E) W').
Qed.

(** *** Where nothing can happen *)

(** One stream by itself. *)
Lemma waits_or_acts : forall T M (x : xstate T M), awaits T M x -> x_f x <> FDead ->
  x_f x = FRead \/
  exists a x' k, SpecNet.calm a /\ conjures a = false /\ xstep T M fuel x a = (x', k) /\ k <> [] /\
    (a = ANext \/ a = AWrite (Some 1) \/ x_f x = FFlushTcp).
Proof.
  intros T M x A D. unfold awaits in A. destruct (x_f x) eqn:F; auto; right.
  - destruct (sync T M fuel (x_s x) (x_m x)) as [y k] eqn:S.
    exists ANext, y, (XStartNext :: k). cbn -[sync]. rewrite F, S. repeat split; auto; try discriminate.
  - destruct (xstep T M fuel x (AWrite (Some 1))) as [y k] eqn:S. exists (AWrite (Some 1)), y, k.
    split; [exact I|]. split; [reflexivity|]. split; [exact S|]. split; [|auto].
    cbn -[sync skipn firstn] in S. rewrite F in S. cbn -[sync skipn firstn] in S.
    destruct (x_wbuf (x_s x)) as [|w ws]; [now contradiction A|]. cbn [length Nat.leb] in S.
    destruct (skipn 1 (w :: ws)); [destruct (sync _ _ _ _ _)|]; injection S as _ <-; discriminate.
  - destruct (xstep T M fuel x (AWrite (Some 1))) as [y k] eqn:S. exists (AWrite (Some 1)), y, k.
    split; [exact I|]. split; [reflexivity|]. split; [exact S|]. split; [|auto].
    cbn -[sync skipn firstn] in S. rewrite F in S. cbn -[sync skipn firstn] in S.
    destruct (x_wbuf (x_s x)) as [|w ws]; [now contradiction A|]. cbn [length Nat.leb] in S.
    destruct (skipn 1 (w :: ws)); injection S as _ <-; discriminate.
  - eexists (AFlushed true), _, _. cbn. rewrite F. repeat split; auto; discriminate.
  - now contradiction D.
Qed.

Lemma read_acts : forall T M (x : xstate T M) b bs x' k, reading (x_f x) = true ->
  xstep T M fuel x (ARead (Some (b :: bs))) = (x', k) -> k <> [].
Proof.
  intros T M x b bs x' k F E. cbn -[sync] in E. rewrite F in E. destruct (sync _ _ _ _ _). injection E as _ <-. discriminate.
Qed.

(** The proxy does not flush its streams. *)
Definition noflush {T M} (x : xstate T M) : Prop :=
  match x_f x with FFlushWrite | FFlushTcp => False | _ => True end.

Lemma sync_noflush : forall T M (s : stream T) m x' l', sync T M fuel s m = (x', l') -> noflush x'.
Proof.
  intros T M s m x' l' E. unfold sync in E.
  assert (Fl : forall s m l r x' l', fail T M s m l r = (x', l') -> noflush x').
  { intros s0 m0 l0 r0 y k H. apply fail_log in H as (_ & _ & _ & _ & _ & [F|F]); unfold noflush; now rewrite F. }
  assert (Aw : forall (s : stream T) m, noflush (@XState T M s m (next_await T s))).
  { intros. unfold noflush, next_await. cbn. now destruct (x_wbuf s0). }
  destruct (sync_input T M fuel s m) as [[[s1 m1] l1] r1]. destruct m1 as [m1|]; [|now injection E as <- <-].
  destruct r1 as [r1|]; [now apply Fl in E|].
  destruct (m_next M m1) as [[m2 r]|]; [|now injection E as <- <-].
  destruct r as [e| |b|e]; try (injection E as <- <-; exact I).
  - destruct (sync_output T fuel s1 []) as [s2 [e|]]; [now apply Fl in E|]. injection E as <- <-. apply Aw.
  - destruct (sync_output T fuel s1 b) as [s2 [e|]]; [now apply Fl in E|]. injection E as <- <-. apply Aw.
Qed.

Lemma io_noflush : forall T M (x : xstate T M) a x' l', noflush x ->
  xstep T M fuel x (io_act M a) = (x', l') -> noflush x'.
Proof.
  intros T M x a x' l' H E. destruct a as [|r|r]; cbn [io_act xstep] in E.
  - destruct (x_f x) eqn:F; try (injection E as <- <-; exact H).
    destruct (sync T M fuel (x_s x) (x_m x)) as [y k] eqn:S. injection E as <- <-. now apply sync_noflush in S.
  - destruct (reading (x_f x)); [|injection E as <- <-; exact H].
    destruct r as [[|b bs]|]; try (injection E as <- <-; exact I).
    destruct (sync T M fuel _ (x_m x)) as [y k] eqn:S. injection E as <- <-. now apply sync_noflush in S.
  - destruct (writing (x_f x)) eqn:W; [|injection E as <- <-; exact H].
    destruct r as [[|n]|]; try (injection E as <- <-; exact I).
    destruct (Nat.leb _ _); [|injection E as <- <-; exact H]. cbn [x_wbuf] in E.
    unfold noflush in H |- *. destruct (skipn _ _).
    + destruct (x_f x) eqn:F; try discriminate; try contradiction.
      destruct (sync T M fuel _ (x_m x)) as [y k] eqn:S. injection E as <- <-. now apply sync_noflush in S.
    + apply pair_equal_spec in E as [<- _]. cbn [x_f]. exact H.
Qed.

Lemma cancel_noflush : forall T M (x : xstate T M) x' l', noflush x ->
  xstep T M fuel x ACancel = (x', l') -> noflush x'.
Proof.
  intros T M x x' l' H E. cbn in E. destruct (pending (x_f x)); injection E as <- <-; [exact I|exact H].
Qed.

Definition pnoflush (p : pstate K T2 T3) : Prop :=
  match p with PsGreeting _ s => noflush s | PsLoop c s => noflush c /\ noflush s | PsEnd _ => True end.

Lemma pstep_noflush : forall p a p' l, pnoflush p -> pstep K T2 T3 fuel gp p a = (p', l) -> pnoflush p'.
Proof.
  intros p [[] a] p' l H E; destruct p as [c s|c s|why]; cbn [pstep] in E;
    try (apply pair_equal_spec in E as [<- _]; exact H).
  - unfold greeting_side in E. destruct (xstep T3 CM fuel s (io_act CM a)) as [s1 lx] eqn:X.
    apply io_noflush in X; [|exact H]. destruct (is_dead (x_f s1)); [apply pair_equal_spec in E as [<- _]; exact I|].
    destruct (returned lx) as [[e| | | | |]|]; try (apply pair_equal_spec in E as [<- _]; exact I).
    + destruct e; apply pair_equal_spec in E as [<- _]; cbn; auto.
    + apply pair_equal_spec in E as [<- _]; exact X.
  - destruct H as [Hc Hs]. unfold server_side in E. destruct (xstep T3 CM fuel s (io_act CM a)) as [s1 lx] eqn:X.
    apply io_noflush in X; [|exact Hs]. destruct (is_dead (x_f s1)); [apply pair_equal_spec in E as [<- _]; exact I|].
    destruct (returned lx) as [r|]; [|apply pair_equal_spec in E as [<- _]; now split].
    destruct (xstep T2 SM fuel c ACancel) as [c1 l2] eqn:C. apply cancel_noflush in C; [|exact Hc].
    destruct (handle_server_event K r) as [| |q u]; try (apply pair_equal_spec in E as [<- _]; now try split).
    destruct (m_call SM (x_m c1) q) as [[m e]|]; [|apply pair_equal_spec in E as [<- _]; exact I].
    destruct (u && s_call_failed e); apply pair_equal_spec in E as [<- _]; [exact I|]. split; [exact C|exact X].
  - destruct H as [Hc Hs]. unfold client_side in E. destruct (xstep T2 SM fuel c (io_act SM a)) as [c1 lx] eqn:X.
    apply io_noflush in X; [|exact Hc]. destruct (is_dead (x_f c1)); [apply pair_equal_spec in E as [<- _]; exact I|].
    destruct (returned lx) as [r|]; [|apply pair_equal_spec in E as [<- _]; now split].
    destruct (xstep T3 CM fuel s ACancel) as [s1 l2] eqn:C. apply cancel_noflush in C; [|exact Hs].
    destruct (handle_client_event K r) as [| |q u]; try (apply pair_equal_spec in E as [<- _]; now try split).
    destruct (m_call CM (x_m s1) q) as [[m e]|]; [|apply pair_equal_spec in E as [<- _]; exact I].
    destruct (u && c_call_failed e); apply pair_equal_spec in E as [<- _]; [exact I|]. split; [exact X|exact C].
Qed.

Lemma rreached_noflush : forall z L, rreached z L -> pnoflush (r_proxy z).
Proof.
  intros z L (acts & E). apply relay_proxy in E as [pa E].
  refine (prun_ind K T2 T3 fuel gp (fun p _ => pnoflush p) _ pa _ [] _ _ _ E); [|exact I].
  intros p l a p1 l1 H S. eapply pstep_noflush; eauto.
Qed.

(** The parts of the log of the proxy that a step of one stream makes. *)
Lemma client_side_log : forall c s a c1 lx p l, xstep T2 SM fuel c (io_act SM a) = (c1, lx) -> lx <> [] ->
  client_side K T2 T3 fuel c s a = (p, l) -> l <> [].
Proof.
  intros c s a c1 lx p l X N E. unfold client_side in E. rewrite X in E.
  destruct lx as [|e lx]; [now contradiction N|].
  destruct (is_dead (x_f c1)); [apply pair_equal_spec in E as [_ <-]; discriminate|].
  destruct (returned (e :: lx)); [|apply pair_equal_spec in E as [_ <-]; discriminate].
  destruct (xstep T3 CM fuel s ACancel). cbn [map app] in E.
  destruct (handle_client_event K s0) as [| |q u]; try (apply pair_equal_spec in E as [_ <-]; discriminate).
  destruct (m_call CM (x_m x) q) as [[m ?]|]; [|apply pair_equal_spec in E as [_ <-]; discriminate].
  destruct (u && _); apply pair_equal_spec in E as [_ <-]; discriminate.
Qed.
Lemma server_side_log : forall c s a s1 lx p l, xstep T3 CM fuel s (io_act CM a) = (s1, lx) -> lx <> [] ->
  server_side K T2 T3 fuel c s a = (p, l) -> l <> [].
Proof.
  intros c s a s1 lx p l X N E. unfold server_side in E. rewrite X in E.
  destruct lx as [|e lx]; [now contradiction N|].
  destruct (is_dead (x_f s1)); [apply pair_equal_spec in E as [_ <-]; discriminate|].
  destruct (returned (e :: lx)); [|apply pair_equal_spec in E as [_ <-]; discriminate].
  destruct (xstep T2 SM fuel c ACancel). cbn [map app] in E.
  destruct (handle_server_event K s0) as [| |q u]; try (apply pair_equal_spec in E as [_ <-]; discriminate).
  destruct (m_call SM (x_m x) q) as [[m ?]|]; [|apply pair_equal_spec in E as [_ <-]; discriminate].
  destruct (u && _); apply pair_equal_spec in E as [_ <-]; discriminate.
Qed.
Lemma greeting_side_log : forall c s a s1 lx p l, xstep T3 CM fuel s (io_act CM a) = (s1, lx) -> lx <> [] ->
  greeting_side K T2 T3 fuel gp c s a = (p, l) -> l <> [].
Proof.
  intros c s a s1 lx p l X N E. unfold greeting_side in E. rewrite X in E.
  destruct lx as [|e lx]; [now contradiction N|].
  destruct (is_dead (x_f s1)); [apply pair_equal_spec in E as [_ <-]; discriminate|].
  destruct (returned (e :: lx)) as [[ev| | | | |]|]; try (apply pair_equal_spec in E as [_ <-]; discriminate).
  destruct ev; apply pair_equal_spec in E as [_ <-]; discriminate.
Qed.

Lemma map_ne : forall A B (f : A -> B) l, l <> [] -> map f l <> [].
Proof. intros A B f [|x l] H; [now contradiction H|discriminate]. Qed.

(** What the proxy can do is possible. *)
Lemma proxy_goes : forall (z : rel) d a p l, io_calm a -> pstep K T2 T3 fuel gp (r_proxy z) (d, a) = (p, l) -> l <> [] ->
  exists z', relay_moves fuel gp z' z.
Proof.
  intros z d a p l Ca E N.
  assert (Cj : conjures (io_act SM (snd (d, a))) = false) by (destruct a as [|[[]|]|]; auto; contradiction).
  eexists. exists (RProxy (d, a)), (map RP l). split; [exact Ca|]. split; [|now apply map_ne].
  cbn [relay_step]. rewrite Cj. unfold proxy_acts. rewrite E. reflexivity.
Qed.
Lemma proxy_reads_client : forall (z : rel) b bs p l, r_in z = b :: bs -> proxy_reading K T2 T3 (r_proxy z) false = true ->
  pstep K T2 T3 fuel gp (r_proxy z) (false, IoRead (Some [b])) = (p, l) -> l <> [] ->
  exists z', relay_moves fuel gp z' z.
Proof.
  intros z b bs p l Q R E N. eexists. exists (RFromClient 1), (map RP l). split; [exact I|].
  split; [|now apply map_ne]. cbn -[pstep]. rewrite Q, R. cbn -[pstep]. unfold proxy_acts. cbn -[pstep].
  rewrite E. reflexivity.
Qed.
Lemma proxy_reads_server : forall (z : rel) b bs p l, r_down z = b :: bs -> proxy_reading K T2 T3 (r_proxy z) true = true ->
  pstep K T2 T3 fuel gp (r_proxy z) (true, IoRead (Some [b])) = (p, l) -> l <> [] ->
  exists z', relay_moves fuel gp z' z.
Proof.
  intros z b bs p l Q R E N. eexists. exists (RFromServer 1), (map RP l). split; [exact I|].
  split; [|now apply map_ne]. cbn -[pstep]. rewrite Q, R. cbn -[pstep]. unfold proxy_acts. cbn -[pstep].
  rewrite E. reflexivity.
Qed.

Lemma io_of : forall M (a : act M), a = ANext \/ a = AWrite (Some 1) -> exists i, io_act M i = a /\ io_calm i.
Proof. intros M a [->| ->]; [now exists IoPoll|now exists (IoWrite (Some 1))]. Qed.

Lemma fran_awaits : forall g n L, ffran g n L -> awaits T1 CM (n_l n) /\ awaits T2 SM (n_r n).
Proof.
  intros g n L [acts E]. apply net_projects in E as [(a1 & E1) (a2 & E2)].
  split; [exact (awaits_run _ _ _ _ _ _ _ _ E1)|exact (awaits_run _ _ _ _ _ _ _ _ E2)].
Qed.
Lemma bran_awaits : forall n L, fbran n L -> awaits T3 CM (n_l n) /\ awaits T4 SM (n_r n).
Proof.
  intros n L [acts E]. apply net_projects in E as [(a1 & E1) (a2 & E2)].
  split; [exact (awaits_run _ _ _ _ _ _ _ _ E1)|exact (awaits_run _ _ _ _ _ _ _ _ E2)].
Qed.

Lemma legs_legs : forall z L, flegs z L ->
  (exists g c, ffran g (fnet K T1 T2 T3 T4 z c) (front L)) /\ (exists s, fbran (bnet K T1 T2 T3 T4 z s) (back L)).
Proof.
  intros z L H. unfold legs in H. destruct (r_proxy z) as [c s|c s|why].
  - destruct H as (_ & _ & _ & _ & H1 & H2). split; [|exists s; exact H2]. exists gr. eexists. exact (H1 gr).
  - destruct H as (_ & _ & (g & _ & H1) & H2). split; [|exists s; exact H2]. exists g, c. exact H1.
  - destruct H as ([(_ & H1)|(g & c & _ & H1)] & H2); (split; [|exact H2]).
    + destruct (H1 gr) as [c H3]. exists gr, c. exact H3.
    + exists g, c. exact H1.
Qed.

Lemma quiet_or_moves : forall z L, rreached z L -> relay_quiet z \/ exists z', relay_moves fuel gp z' z.
Proof.
  intros z L R. pose proof (rreached_noflush _ _ R) as NF. pose proof (rreached_legs _ _ R) as Lg.
  pose proof (rreached_tidy _ _ R) as [(_ & _ & D1) (_ & _ & D4)].
  destruct (legs_legs _ _ Lg) as ((g & c0 & F) & (s0 & B)).
  apply fran_awaits in F as [A1 _]. apply bran_awaits in B as [_ A4]. cbn [fnet bnet n_l n_r] in A1, A4.
  destruct (waits_or_acts _ _ _ A1 D1) as [F1|(a & x & k & Ca & Cj & X & N & _)].
  2:{ right. eexists. exists (RClient a), (map RC k). split; [exact Ca|]. split; [|now apply map_ne].
      cbn -[xstep]. rewrite Cj, X. reflexivity. }
  destruct (waits_or_acts _ _ _ A4 D4) as [F4|(a & x & k & Ca & Cj & X & N & _)].
  2:{ right. eexists. exists (RServer a), (map RS k). split; [exact Ca|]. split; [|now apply map_ne].
      cbn -[xstep]. rewrite Cj, X. reflexivity. }
  destruct (r_out z) as [|b bs] eqn:Qo.
  2:{ right. destruct (xstep T1 CM fuel (r_client z) (ARead (Some [b]))) as [x k] eqn:X.
      eexists. exists (RToClient 1), (map RC k). split; [exact I|].
      split; [cbn -[xstep]; rewrite Qo, F1; cbn -[xstep]; rewrite X; reflexivity|].
      apply map_ne. eapply read_acts; [|exact X]. now rewrite F1. }
  destruct (r_up z) as [|b bs] eqn:Qu.
  2:{ right. destruct (xstep T4 SM fuel (r_server z) (ARead (Some [b]))) as [x k] eqn:X.
      eexists. exists (RToServer 1), (map RS k). split; [exact I|].
      split; [cbn -[xstep]; rewrite Qu, F4; cbn -[xstep]; rewrite X; reflexivity|].
      apply map_ne. eapply read_acts; [|exact X]. now rewrite F4. }
  unfold relay_quiet. rewrite Qo, Qu, F1, F4. unfold legs in Lg.
  destruct (r_proxy z) as [c s|c s|why] eqn:Ep; [| |left; repeat split; auto].
  - destruct Lg as (_ & Ls & _ & _ & _ & B). pose proof (bran_awaits _ _ B) as [A3 _]. cbn [bnet n_l] in A3.
    destruct (waits_or_acts _ _ _ A3 Ls) as [F3|(a & x & k & Ca & Cj & X & N & Io)].
    2:{ right. destruct Io as [Io|[Io|Io]]; [| |cbn in NF; unfold noflush in NF; now rewrite Io in NF].
        all: destruct (io_of CM a) as (i & <- & Ci); auto.
        all: destruct (greeting_side K T2 T3 fuel gp c s i) as [p l] eqn:P.
        all: apply (proxy_goes z true i p l Ci); [rewrite Ep; exact P|exact (greeting_side_log _ _ _ _ _ _ _ X N P)]. }
    destruct (r_down z) as [|b bs] eqn:Qd; [left; repeat split; auto|]. right.
    destruct (xstep T3 CM fuel s (ARead (Some [b]))) as [x k] eqn:X.
    destruct (greeting_side K T2 T3 fuel gp c s (IoRead (Some [b]))) as [p l] eqn:P.
    apply (proxy_reads_server z b bs p l Qd); [rewrite Ep; cbn; now rewrite F3|rewrite Ep; exact P|].
    refine (greeting_side_log _ _ (IoRead (Some [b])) _ _ _ _ X _ P). eapply read_acts; [|exact X]. now rewrite F3.
  - destruct Lg as (Lc & Ls & (gg & _ & F) & B).
    pose proof (bran_awaits _ _ B) as [A3 _]. pose proof (fran_awaits _ _ _ F) as [_ A2]. cbn [bnet fnet n_l n_r] in A2, A3.
    destruct NF as [N2 N3].
    destruct (waits_or_acts _ _ _ A2 Lc) as [F2|(a & x & k & Ca & Cj & X & N & Io)].
    2:{ right. destruct Io as [Io|[Io|Io]]; [| |unfold noflush in N2; now rewrite Io in N2].
        all: destruct (io_of SM a) as (i & <- & Ci); auto.
        all: destruct (client_side K T2 T3 fuel c s i) as [p l] eqn:P.
        all: apply (proxy_goes z false i p l Ci); [rewrite Ep; exact P|exact (client_side_log _ _ _ _ _ _ _ X N P)]. }
    destruct (waits_or_acts _ _ _ A3 Ls) as [F3|(a & x & k & Ca & Cj & X & N & Io)].
    2:{ right. destruct Io as [Io|[Io|Io]]; [| |unfold noflush in N3; now rewrite Io in N3].
        all: destruct (io_of CM a) as (i & <- & Ci); auto.
        all: destruct (server_side K T2 T3 fuel c s i) as [p l] eqn:P.
        all: apply (proxy_goes z true i p l Ci); [rewrite Ep; exact P|exact (server_side_log _ _ _ _ _ _ _ X N P)]. }
    destruct (r_in z) as [|b bs] eqn:Qi.
    2:{ right. destruct (xstep T2 SM fuel c (ARead (Some [b]))) as [x k] eqn:X.
        destruct (client_side K T2 T3 fuel c s (IoRead (Some [b]))) as [p l] eqn:P.
        apply (proxy_reads_client z b bs p l Qi); [rewrite Ep; cbn; now rewrite F2|rewrite Ep; exact P|].
        refine (client_side_log _ _ (IoRead (Some [b])) _ _ _ _ X _ P). eapply read_acts; [|exact X]. now rewrite F2. }
    destruct (r_down z) as [|b bs] eqn:Qd; [left; repeat split; auto|]. right.
    destruct (xstep T3 CM fuel s (ARead (Some [b]))) as [x k] eqn:X.
    destruct (server_side K T2 T3 fuel c s (IoRead (Some [b]))) as [p l] eqn:P.
    apply (proxy_reads_server z b bs p l Qd); [rewrite Ep; cbn; now rewrite F3|rewrite Ep; exact P|].
    refine (server_side_log _ _ (IoRead (Some [b])) _ _ _ _ X _ P). eapply read_acts; [|exact X]. now rewrite F3.
Qed.

Lemma quiet_still : forall z : rel, relay_quiet z -> ~ exists z', relay_moves fuel gp z' z.
Proof.
  intros z (Qo & Qu & F1 & F4 & Qp) (z' & a & l & C & E & Ne). apply Ne.
  assert (Io : forall T M (x : xstate T M) (a : act M), x_f x = FRead -> SpecNet.calm a -> xstep T M fuel x a = (x, [])).
  { intros T M x a0 F Ca. destruct a0 as [| |r|[[|n]|]|[|]| |]; try contradiction; cbn [xstep]; rewrite F; reflexivity. }
  assert (Co : forall M i, io_calm i -> SpecNet.calm (io_act M i)).
  { intros M [| |[[|n]|]] H; try contradiction; exact I. }
  assert (Pc : forall (x : xstate T2 SM) s i, x_f x = FRead -> io_calm i -> client_side K T2 T3 fuel x s i = (PsLoop x s, [])).
  { intros x s i F Ci. unfold client_side. rewrite (Io _ _ x _ F (Co _ _ Ci)), F. reflexivity. }
  assert (Ps : forall c (x : xstate T3 CM) i, x_f x = FRead -> io_calm i -> server_side K T2 T3 fuel c x i = (PsLoop c x, [])).
  { intros c x i F Ci. unfold server_side. rewrite (Io _ _ x _ F (Co _ _ Ci)), F. reflexivity. }
  assert (Pg : forall c (x : xstate T3 CM) i, x_f x = FRead -> io_calm i -> greeting_side K T2 T3 fuel gp c x i = (PsGreeting c x, [])).
  { intros c x i F Ci. unfold greeting_side. rewrite (Io _ _ x _ F (Co _ _ Ci)), F. reflexivity. }
  destruct a as [a|a|a|n|n|n|n]; cbn -[xstep pstep proxy_acts] in E; cbn [relay_calm] in C.
  - destruct (conjures a); [now injection E as _ <-|]. rewrite (Io _ _ _ _ F1 C) in E. now injection E as _ <-.
  - destruct (conjures a); [now injection E as _ <-|]. rewrite (Io _ _ _ _ F4 C) in E. now injection E as _ <-.
  - destruct a as [d a]. destruct (conjures _); [now injection E as _ <-|]. unfold proxy_acts in E.
    destruct (r_proxy z) as [c s|c s|why].
    + destruct Qp as [_ Fs]. destruct d; cbn [pstep] in E; [rewrite (Pg _ _ _ Fs C) in E|]; now injection E as _ <-.
    + destruct Qp as (_ & _ & Fc & Fs).
      destruct d; cbn [pstep] in E; [rewrite (Ps _ _ _ Fs C) in E|rewrite (Pc _ _ _ Fc C) in E]; now injection E as _ <-.
    + destruct d; now injection E as _ <-.
  - assert (Q : firstn n (r_in z) = [] \/ proxy_reading K T2 T3 (r_proxy z) false = false).
    { destruct (r_proxy z) as [c s|c s|why]; [now right| |now right]. destruct Qp as (-> & _). left. apply firstn_nil. }
    destruct Q as [Q|Q]; rewrite Q in E; [|destruct (firstn n (r_in z))]; now injection E as _ <-.
  - rewrite Qo, firstn_nil in E. now injection E as _ <-.
  - rewrite Qu, firstn_nil in E. now injection E as _ <-.
  - assert (Q : firstn n (r_down z) = [] \/ proxy_reading K T2 T3 (r_proxy z) true = false).
    { destruct (r_proxy z) as [c s|c s|why]; [| |now right].
      - destruct Qp as (-> & _). left. apply firstn_nil.
      - destruct Qp as (_ & -> & _). left. apply firstn_nil. }
    destruct Q as [Q|Q]; rewrite Q in E; [|destruct (firstn n (r_down z))]; now injection E as _ <-.
Qed.

(** Every run can be continued until nothing can happen. *)
Lemma relay_settles : forall z L, rreached z L ->
  exists acts z' L', Forall (@relay_calm K) acts /\ run z acts = (z', L') /\ relay_quiet z'.
Proof.
  intros z L R. pose proof (relay_acc _ _ R) as A. revert L R.
  induction A as [z _ IH]. intros L R. destruct (quiet_or_moves _ _ R) as [Q|(z1 & M)].
  - exists [], z, []. split; [constructor|]. split; [reflexivity|exact Q].
  - pose proof M as (a & l & C & E & _).
    destruct (IH _ M _ (rreached_step _ _ _ _ _ R E)) as (acts & z2 & L2 & C2 & E2 & Q2).
    exists (a :: acts), z2, (l ++ L2). split; [now constructor|]. split; [|exact Q2].
    cbn -[relay_step]. now rewrite E, E2.
Qed.
End Live.
