(** Client, proxy and server: each leg is a pair of connected streams. *)
From Coq Require Import List NArith Bool PeanoNat Lia.
From Verif Require Import Base Types Codec Handle Receive ClientSend Client ServerSend Server
  SpecFraming SpecClient SpecServer Stream StreamMachine SpecStream StreamProofs StreamState
  System SpecSystem SpecSystemLive Net SpecNet NetProofs ProxyUtil Proxy SpecProxy ProxyFilter ProxyEffect ProxyProofs
  ProxyInv ProxyRuns Relay SpecRelay.
Import ListNotations.

(** ** Runs of two connected streams *)

Section Nran.
Context (T1 T2 : tls) (M1 M2 : machine) (fuel : nat).
Notation run := (net_run T1 T2 M1 M2 fuel).

Definition nran (z0 z : net T1 T2 M1 M2) (l : list (nlog M1 M2)) : Prop :=
  exists acts, run z0 acts = (z, l).

Lemma nran_step : forall z0 z l a z' l', nran z0 z l -> net_step T1 T2 M1 M2 fuel z a = (z', l') ->
  nran z0 z' (l ++ l').
Proof.
  intros z0 z l a z' l' [acts H] E. exists (acts ++ [a]). rewrite net_run_app, H. cbn [net_run].
  rewrite E. now rewrite app_nil_r.
Qed.

Definition own {M} (a : act M) : Prop := conjures a = false.

Lemma nran_left : forall z0 acts z l x k, nran z0 z l -> Forall own acts ->
  xrun T1 M1 fuel (n_l z) acts = (x, k) ->
  nran z0 (Net x (n_r z) (n_right z ++ xwritten k) (n_left z)) (l ++ map NL k).
Proof.
  intros z0 acts. induction acts as [|a acts IH]; intros z l x k H F E; cbn -[xstep] in E.
  - injection E as <- <-. cbn. rewrite !app_nil_r. now destruct z.
  - destruct (xstep T1 M1 fuel (n_l z) a) as [x1 k1] eqn:E1.
    destruct (xrun T1 M1 fuel x1 acts) as [x2 k2] eqn:E2. injection E as <- <-.
    inversion F as [|? ? F1 F2]; subst.
    assert (H1 : nran z0 (Net x1 (n_r z) (n_right z ++ xwritten k1) (n_left z)) (l ++ map NL k1)).
    { apply (nran_step _ _ _ (NLeft a) _ _ H). cbn -[xstep]. rewrite F1, E1. reflexivity. }
    specialize (IH _ _ _ _ H1 F2 E2). cbn [n_r n_right n_left] in IH.
    now rewrite xwritten_app, app_assoc, map_app, app_assoc.
Qed.
Lemma nran_right : forall z0 acts z l x k, nran z0 z l -> Forall own acts ->
  xrun T2 M2 fuel (n_r z) acts = (x, k) ->
  nran z0 (Net (n_l z) x (n_right z) (n_left z ++ xwritten k)) (l ++ map NR k).
Proof.
  intros z0 acts. induction acts as [|a acts IH]; intros z l x k H F E; cbn -[xstep] in E.
  - injection E as <- <-. cbn. rewrite !app_nil_r. now destruct z.
  - destruct (xstep T2 M2 fuel (n_r z) a) as [x1 k1] eqn:E1.
    destruct (xrun T2 M2 fuel x1 acts) as [x2 k2] eqn:E2. injection E as <- <-.
    inversion F as [|? ? F1 F2]; subst.
    assert (H1 : nran z0 (Net (n_l z) x1 (n_right z) (n_left z ++ xwritten k1)) (l ++ map NR k1)).
    { apply (nran_step _ _ _ (NRight a) _ _ H). cbn -[xstep]. rewrite F1, E1. reflexivity. }
    specialize (IH _ _ _ _ H1 F2 E2). cbn [n_l n_right n_left] in IH.
    now rewrite xwritten_app, app_assoc, map_app, app_assoc.
Qed.

Lemma nran_left1 : forall z0 a z l x k, nran z0 z l -> own a -> xstep T1 M1 fuel (n_l z) a = (x, k) ->
  nran z0 (Net x (n_r z) (n_right z ++ xwritten k) (n_left z)) (l ++ map NL k).
Proof.
  intros z0 a z l x k H F E. apply (nran_left _ [a] _ _ _ _ H); [now repeat constructor|].
  cbn -[xstep]. rewrite E. now rewrite app_nil_r.
Qed.
Lemma nran_right1 : forall z0 a z l x k, nran z0 z l -> own a -> xstep T2 M2 fuel (n_r z) a = (x, k) ->
  nran z0 (Net (n_l z) x (n_right z) (n_left z ++ xwritten k)) (l ++ map NR k).
Proof.
  intros z0 a z l x k H F E. apply (nran_right _ [a] _ _ _ _ H); [now repeat constructor|].
  cbn -[xstep]. rewrite E. now rewrite app_nil_r.
Qed.
Lemma nran_to_left : forall z0 n b bs z l x k, nran z0 z l ->
  firstn n (n_left z) = b :: bs -> reading (x_f (n_l z)) = true ->
  xstep T1 M1 fuel (n_l z) (ARead (Some (b :: bs))) = (x, k) ->
  nran z0 (Net x (n_r z) (n_right z ++ xwritten k) (skipn n (n_left z))) (l ++ map NL k).
Proof.
  intros z0 n b bs z l x k H F R E. apply (nran_step _ _ _ (NToLeft n) _ _ H). cbn -[xstep].
  now rewrite F, R, E.
Qed.
Lemma nran_to_right : forall z0 n b bs z l x k, nran z0 z l ->
  firstn n (n_right z) = b :: bs -> reading (x_f (n_r z)) = true ->
  xstep T2 M2 fuel (n_r z) (ARead (Some (b :: bs))) = (x, k) ->
  nran z0 (Net (n_l z) x (skipn n (n_right z)) (n_left z ++ xwritten k)) (l ++ map NR k).
Proof.
  intros z0 n b bs z l x k H F R E. apply (nran_step _ _ _ (NToRight n) _ _ H). cbn -[xstep].
  now rewrite F, R, E.
Qed.
End Nran.

(** ** One step of the proxy, at both streams *)

Section Parts.
Context (K : Codecs) (Tc Ts : tls) (fuel : nat).
Notation SM := (server_machine K).
Notation CM := (client_machine K).

Definition lives {T M} (x : xstate T M) : Prop := x_f x <> FDead.

Lemma client_side_parts : forall c s a p l, lives s ->
  client_side K Tc Ts fuel c s a = (p, l) ->
  exists c1 lx acts s1 ls, xstep Tc SM fuel c (io_act SM a) = (c1, lx) /\
    xrun Ts CM fuel s acts = (s1, ls) /\ Forall own acts /\ at_client l = lx /\ at_server l = ls /\
    match p with PsLoop c' s' => c' = c1 /\ s' = s1 /\ lives c1 /\ lives s1
    | PsEnd _ => True | PsGreeting _ _ => False end.
Proof.
  intros c s a p l Hs E. unfold client_side in E.
  destruct (xstep Tc SM fuel c (io_act SM a)) as [c1 lx] eqn:X. exists c1, lx.
  destruct (is_dead (x_f c1)) eqn:D.
  { apply pair_equal_spec in E as [<- <-]. exists [], s, []. rewrite at_client_map, at_server_other. auto 10. }
  apply not_dead in D.
  destruct (returned lx) as [r|].
  2:{ apply pair_equal_spec in E as [<- <-]. exists [], s, []. rewrite at_client_map, at_server_other. auto 10. }
  destruct (xstep Ts CM fuel s ACancel) as [s1 l2] eqn:C.
  apply cancel_step in C as Q. destruct Q as (_ & _ & Cf & _). specialize (Cf Hs).
  assert (P : forall k, at_client (map (@PlClient K) lx ++ map PlServer l2 ++ k) = lx ++ at_client k /\
                        at_server (map (@PlClient K) lx ++ map PlServer l2 ++ k) = l2 ++ at_server k).
  { intro k. now rewrite !at_client_app, !at_server_app, at_client_map, at_client_other, at_server_map, at_server_other. }
  assert (R1 : xrun Ts CM fuel s [ACancel] = (s1, l2)) by (cbn -[xstep]; rewrite C; now rewrite app_nil_r).
  destruct (handle_client_event K r) as [| |o u].
  - apply pair_equal_spec in E as [<- <-]. exists [ACancel], s1, l2. rewrite <- app_assoc.
    destruct (P [PlAbort]) as [-> ->]. cbn. rewrite !app_nil_r. repeat split; auto. now repeat constructor.
  - apply pair_equal_spec in E as [<- <-]. exists [ACancel], s1, l2.
    destruct (P []) as [P1 P2]. rewrite !app_nil_r in P1. rewrite P1. rewrite !app_nil_r in P2. rewrite P2.
    cbn. rewrite ?app_nil_r. repeat split; auto; [now repeat constructor|]. unfold lives. rewrite Cf. discriminate.
  - destruct (m_call CM (x_m s1) o) as [[m e]|] eqn:CL.
    + exists [ACancel; @ACall CM o], (@XState Ts CM (x_s s1) m FIdle), (l2 ++ [@XCall CM o e]).
      assert (R2 : xrun Ts CM fuel s [ACancel; @ACall CM o] =
        (@XState Ts CM (x_s s1) m FIdle, l2 ++ [@XCall CM o e])).
      { unfold xrun at 1. rewrite C. cbn [xstep]. rewrite Cf, CL. cbn. reflexivity. }
      destruct (u && c_call_failed e); apply pair_equal_spec in E as [<- <-]; rewrite <- !app_assoc.
      * destruct (P ([PlServer (@XCall CM o e)] ++ [PlPanic])) as [-> ->]. cbn [app at_client at_server].
        rewrite !app_nil_r. split; [reflexivity|]. split; [exact R2|]. repeat split; auto. now repeat constructor.
      * destruct (P [PlServer (@XCall CM o e)]) as [-> ->]. cbn [app at_client at_server].
        rewrite !app_nil_r, Cf. split; [reflexivity|]. split; [exact R2|]. repeat split; auto; [now repeat constructor|discriminate].
    + exists [ACancel; @ACall CM o], (@XState Ts CM (x_s s1) (x_m s1) FDead), (l2 ++ [XPanic]).
      assert (R2 : xrun Ts CM fuel s [ACancel; @ACall CM o] =
        (@XState Ts CM (x_s s1) (x_m s1) FDead, l2 ++ [XPanic])).
      { unfold xrun at 1. rewrite C. cbn [xstep]. rewrite Cf, CL. cbn. reflexivity. }
      apply pair_equal_spec in E as [<- <-]; rewrite <- !app_assoc.
      destruct (P [PlServer XPanic]) as [-> ->]. cbn [app at_client at_server].
      rewrite !app_nil_r. split; [reflexivity|]. split; [exact R2|]. repeat split; auto. now repeat constructor.
Qed.

Lemma server_side_parts : forall c s a p l, lives c ->
  server_side K Tc Ts fuel c s a = (p, l) ->
  exists s1 lx acts c1 ls, xstep Ts CM fuel s (io_act CM a) = (s1, lx) /\
    xrun Tc SM fuel c acts = (c1, ls) /\ Forall own acts /\ at_server l = lx /\ at_client l = ls /\
    match p with PsLoop c' s' => c' = c1 /\ s' = s1 /\ lives c1 /\ lives s1
    | PsEnd _ => True | PsGreeting _ _ => False end.
Proof.
  intros c s a p l Hs E. unfold server_side in E.
  destruct (xstep Ts CM fuel s (io_act CM a)) as [s1 lx] eqn:X. exists s1, lx.
  destruct (is_dead (x_f s1)) eqn:D.
  { apply pair_equal_spec in E as [<- <-]. exists [], c, []. rewrite at_server_map, at_client_other. auto 10. }
  apply not_dead in D.
  destruct (returned lx) as [r|].
  2:{ apply pair_equal_spec in E as [<- <-]. exists [], c, []. rewrite at_server_map, at_client_other. auto 10. }
  destruct (xstep Tc SM fuel c ACancel) as [c1 l2] eqn:C.
  apply cancel_step in C as Q. destruct Q as (_ & _ & Cf & _). specialize (Cf Hs).
  assert (P : forall k, at_server (map (@PlServer K) lx ++ map PlClient l2 ++ k) = lx ++ at_server k /\
                        at_client (map (@PlServer K) lx ++ map PlClient l2 ++ k) = l2 ++ at_client k).
  { intro k. now rewrite !at_client_app, !at_server_app, at_client_map, at_client_other, at_server_map, at_server_other. }
  assert (R1 : xrun Tc SM fuel c [ACancel] = (c1, l2)) by (cbn -[xstep]; rewrite C; now rewrite app_nil_r).
  destruct (handle_server_event K r) as [| |o u].
  - apply pair_equal_spec in E as [<- <-]. exists [ACancel], c1, l2. rewrite <- app_assoc.
    destruct (P [PlAbort]) as [-> ->]. cbn. rewrite !app_nil_r. repeat split; auto. now repeat constructor.
  - apply pair_equal_spec in E as [<- <-]. exists [ACancel], c1, l2.
    destruct (P []) as [P1 P2]. rewrite !app_nil_r in P1. rewrite P1. rewrite !app_nil_r in P2. rewrite P2.
    cbn. rewrite ?app_nil_r. repeat split; auto; [now repeat constructor|]. unfold lives. rewrite Cf. discriminate.
  - destruct (m_call SM (x_m c1) o) as [[m e]|] eqn:CL.
    + exists [ACancel; @ACall SM o], (@XState Tc SM (x_s c1) m FIdle), (l2 ++ [@XCall SM o e]).
      assert (R2 : xrun Tc SM fuel c [ACancel; @ACall SM o] =
        (@XState Tc SM (x_s c1) m FIdle, l2 ++ [@XCall SM o e])).
      { unfold xrun at 1. rewrite C. cbn [xstep]. rewrite Cf, CL. cbn. reflexivity. }
      destruct (u && s_call_failed e); apply pair_equal_spec in E as [<- <-]; rewrite <- !app_assoc.
      * destruct (P ([PlClient (@XCall SM o e)] ++ [PlPanic])) as [-> ->]. cbn [app at_client at_server].
        rewrite !app_nil_r. split; [reflexivity|]. split; [exact R2|]. repeat split; auto. now repeat constructor.
      * destruct (P [PlClient (@XCall SM o e)]) as [-> ->]. cbn [app at_client at_server].
        rewrite !app_nil_r, Cf. split; [reflexivity|]. split; [exact R2|]. repeat split; auto; [now repeat constructor|discriminate].
    + exists [ACancel; @ACall SM o], (@XState Tc SM (x_s c1) (x_m c1) FDead), (l2 ++ [XPanic]).
      assert (R2 : xrun Tc SM fuel c [ACancel; @ACall SM o] =
        (@XState Tc SM (x_s c1) (x_m c1) FDead, l2 ++ [XPanic])).
      { unfold xrun at 1. rewrite C. cbn [xstep]. rewrite Cf, CL. cbn. reflexivity. }
      apply pair_equal_spec in E as [<- <-]; rewrite <- !app_assoc.
      destruct (P [PlClient XPanic]) as [-> ->]. cbn [app at_client at_server].
      rewrite !app_nil_r. split; [reflexivity|]. split; [exact R2|]. repeat split; auto. now repeat constructor.
Qed.

Lemma greeting_side_parts : forall gp c s a p l,
  greeting_side K Tc Ts fuel gp c s a = (p, l) ->
  exists s1 lx, xstep Ts CM fuel s (io_act CM a) = (s1, lx) /\ at_server l = lx /\ at_client l = [] /\
    match p with
    | PsGreeting c' s' => c' = c /\ s' = s1 /\ lives s1 /\ server_events l = []
    | PsLoop c' s' => s' = s1 /\ lives s1 /\ exists g, server_events l = [CeGreetingReceived g] /\
        c' = @XState Tc SM c (server_new gp proxy_soptions (filter_greeting g)) FIdle
    | PsEnd _ => True
    end.
Proof.
  intros gp c s a p l E. unfold greeting_side in E.
  destruct (xstep Ts CM fuel s (io_act CM a)) as [s1 lx] eqn:X. exists s1, lx. split; [reflexivity|].
  pose proof (server_io_log Ts fuel s a s1 lx X) as (_ & A2 & _).
  assert (P : forall k, at_server k = [] -> at_client k = [] ->
     at_server (map (@PlServer K) lx ++ k) = lx /\ at_client (map (@PlServer K) lx ++ k) = []).
  { intros k K1 K2. now rewrite at_client_app, at_server_app, at_client_other, at_server_map, K1, K2, app_nil_r. }
  destruct (P [] eq_refl eq_refl) as [P1 P2]. rewrite app_nil_r in P1, P2.
  destruct (is_dead (x_f s1)) eqn:D.
  { apply pair_equal_spec in E as [<- <-]. auto. }
  apply not_dead in D. destruct (P [PlAbort] eq_refl eq_refl) as [P3 P4].
  destruct (returned lx) as [r|].
  2:{ apply pair_equal_spec in E as [<- <-]. repeat split; auto. }
  destruct r as [e| | | | |]; try (apply pair_equal_spec in E as [<- <-]; now auto).
  destruct e; try (apply pair_equal_spec in E as [<- <-]; now auto).
  apply pair_equal_spec in E as [<- <-]. repeat split; auto. exists g. auto.
Qed.
End Parts.

(** ** Logs of the legs *)

Section Logs.
Context {K : Codecs}.
Implicit Types L : list (rlog K).

Lemma front_app : forall L1 L2, front (L1 ++ L2) = front L1 ++ front L2.
Proof. intros. apply flat_map_app. Qed.
Lemma back_app : forall L1 L2, back (L1 ++ L2) = back L1 ++ back L2.
Proof. intros. apply flat_map_app. Qed.
Lemma middle_app : forall L1 L2, middle (L1 ++ L2) = middle L1 ++ middle L2.
Proof. intros. apply flat_map_app. Qed.

Lemma front_c : forall l, front (map (@RC K) l) = map NL l.
Proof. unfold front, back, middle. induction l; cbn; congruence. Qed.
Lemma back_c : forall l, back (map (@RC K) l) = [].
Proof. unfold front, back, middle. induction l; cbn; congruence. Qed.
Lemma middle_c : forall l, middle (map (@RC K) l) = [].
Proof. unfold front, back, middle. induction l; cbn; congruence. Qed.
Lemma front_s : forall l, front (map (@RS K) l) = [].
Proof. unfold front, back, middle. induction l; cbn; congruence. Qed.
Lemma back_s : forall l, back (map (@RS K) l) = map NR l.
Proof. unfold front, back, middle. induction l; cbn; congruence. Qed.
Lemma middle_s : forall l, middle (map (@RS K) l) = [].
Proof. unfold front, back, middle. induction l; cbn; congruence. Qed.
Lemma front_p : forall l, front (map (@RP K) l) = map NR (at_client l).
Proof. unfold front, back, middle. induction l as [|[] l IH]; cbn; congruence. Qed.
Lemma back_p : forall l, back (map (@RP K) l) = map NL (at_server l).
Proof. unfold front, back, middle. induction l as [|[] l IH]; cbn; congruence. Qed.
Lemma middle_p : forall l, middle (map (@RP K) l) = l.
Proof. unfold front, back, middle. induction l; cbn; congruence. Qed.

Lemma front_rights : forall L, rights (front L) = at_client (middle L).
Proof. unfold front, back, middle. induction L as [|[e|[]|e] L IH]; cbn; congruence. Qed.
Lemma back_lefts : forall L, lefts (back L) = at_server (middle L).
Proof. unfold front, back, middle. induction L as [|[e|[]|e] L IH]; cbn; congruence. Qed.
End Logs.

(** ** The legs *)

Section Legs.
Context (K : Codecs) (T1 T2 T3 T4 : tls) (fuel : nat).
Context (s1 : stream T1) (s2 : stream T2) (s3 : stream T3) (s4 : stream T4).
Context (relaxed : bool) (o : soptions) (gc gp gq gs : hgen) (gr : greeting).
Notation SM := (server_machine K).
Notation CM := (client_machine K).
Notation step := (relay_step K T1 T2 T3 T4 fuel gp).
Notation run := (relay_run K T1 T2 T3 T4 fuel gp).
Notation start := (relay_new K T1 T2 T3 T4 s1 s2 s3 s4 relaxed o gc gq gs gr).

Definition front_new (g : greeting) : net T1 T2 CM SM :=
  net_new T1 T2 CM SM s1 (client_new gc relaxed) s2 (server_new gp proxy_soptions (filter_greeting g)).
Definition back_new : net T3 T4 CM SM :=
  net_new T3 T4 CM SM s3 (client_new gq false) s4 (server_new gs o gr).
Definition fran (g : greeting) := nran T1 T2 CM SM fuel (front_new g).
Definition bran := nran T3 T4 CM SM fuel back_new.

(** The legs, with the states [c] and [s] of the proxy's streams. *)
Definition fnet (z : relay K T1 T2 T3 T4) (c : xstate T2 SM) : net T1 T2 CM SM :=
  Net (r_client z) c (r_in z) (r_out z).
Definition bnet (z : relay K T1 T2 T3 T4) (s : xstate T3 CM) : net T3 T4 CM SM :=
  Net s (r_server z) (r_up z) (r_down z).

Definition legs (z : relay K T1 T2 T3 T4) (L : list (rlog K)) : Prop :=
  match r_proxy z with
  | PsGreeting c s =>
      c = s2 /\ lives s /\ at_client (middle L) = [] /\ server_events (middle L) = [] /\
      (forall g, fran g (fnet z (n_r (front_new g))) (front L)) /\
      bran (bnet z s) (back L)
  | PsLoop c s =>
      lives c /\ lives s /\ (exists g, greeted_with K (middle L) g /\ fran g (fnet z c) (front L)) /\
      bran (bnet z s) (back L)
  | PsEnd _ =>
      ((at_client (middle L) = [] /\ forall g, exists c, fran g (fnet z c) (front L)) \/
       exists g c, greeted_with K (middle L) g /\ fran g (fnet z c) (front L)) /\
      exists s, bran (bnet z s) (back L)
  end.

Lemma relay_run_app : forall a1 a2 z, run z (a1 ++ a2) =
  let '(z1, l1) := run z a1 in let '(z2, l2) := run z1 a2 in (z2, l1 ++ l2).
Proof.
  induction a1 as [|a a1 IH]; intros a2 z; cbn.
  - now destruct (run z a2).
  - destruct (step z a) as [z1 l1]. rewrite IH. destruct (run z1 a1) as [z2 l2].
    destruct (run z2 a2) as [z3 l3]. now rewrite app_assoc.
Qed.

Lemma relay_run_ind : forall (P : relay K T1 T2 T3 T4 -> list (rlog K) -> Prop) z0,
  P z0 [] ->
  (forall z l a z' l', P z l -> step z a = (z', l') -> P z' (l ++ l')) ->
  forall acts z l, run z0 acts = (z, l) -> P z l.
Proof.
  intros P z0 H0 HS acts. induction acts as [|a acts IH] using rev_ind; intros z l E.
  - cbn in E. now injection E as <- <-.
  - rewrite relay_run_app in E. destruct (run z0 acts) as [z1 l1] eqn:E1. cbn in E.
    destruct (step z1 a) as [z2 l2] eqn:E2. injection E as <- <-. rewrite app_nil_r. eauto.
Qed.

Lemma legs_new : legs start [].
Proof.
  cbn. repeat split; auto; [discriminate| |]; intros; exists []; reflexivity.
Qed.

(** A step at the far ends. *)
Lemma legs_client : forall z L x l r out,
  legs z L ->
  (forall g c, fran g (fnet z c) (front L) ->
     fran g (Net x c (r_in z ++ r) out) (front L ++ map NL l)) ->
  legs (Relay x (r_proxy z) (r_server z) (r_in z ++ r) out (r_up z) (r_down z)) (L ++ map RC l).
Proof.
  intros z L x l r out H S. unfold legs in *. cbn [r_proxy].
  rewrite front_app, back_app, middle_app, front_c, back_c, middle_c, !app_nil_r.
  unfold fnet, bnet. cbn [r_client r_server r_in r_out r_up r_down].
  destruct (r_proxy z) as [c s|c s|why].
  - destruct H as (H1 & H2 & H3 & H4 & H5 & H6). repeat split; auto.
  - destruct H as (H1 & H2 & (g & H3 & H4) & H5). repeat split; auto. exists g. split; [exact H3|]. now apply S.
  - destruct H as ([(H1 & H2)|(g & c & H1 & H2)] & H3); (split; [|exact H3]).
    + left. split; [exact H1|]. intro g. destruct (H2 g) as [c Hc]. exists c. now apply S.
    + right. exists g, c. split; [exact H1|]. now apply S.
Qed.
Lemma legs_server : forall z L x l r up,
  legs z L ->
  (forall s, bran (bnet z s) (back L) ->
     bran (Net s x up (r_down z ++ r)) (back L ++ map NR l)) ->
  legs (Relay (r_client z) (r_proxy z) x (r_in z) (r_out z) up (r_down z ++ r)) (L ++ map RS l).
Proof.
  intros z L x l r out H S. unfold legs in *. cbn [r_proxy].
  rewrite front_app, back_app, middle_app, front_s, back_s, middle_s, !app_nil_r.
  unfold fnet, bnet. cbn [r_client r_server r_in r_out r_up r_down].
  destruct (r_proxy z) as [c s|c s|why].
  - destruct H as (H1 & H2 & H3 & H4 & H5 & H6). repeat split; auto.
  - destruct H as (H1 & H2 & (g & H3 & H4) & H5). repeat split; eauto.
  - destruct H as (H1 & s & H2). split; [exact H1|]. exists s. now apply S.
Qed.

(** A step of the proxy; [inn] and [dn] are what remains under way to it. *)
Lemma legs_proxy : forall z L a inn dn p l,
  legs z L ->
  (forall g c s, r_proxy z = PsLoop c s ->
     fst a = false -> fran g (fnet z c) (front L) ->
     forall c1 lx, xstep T2 SM fuel c (io_act SM (snd a)) = (c1, lx) ->
     fran g (Net (r_client z) c1 inn (r_out z ++ xwritten lx)) (front L ++ map NR lx)) ->
  (forall s, (exists c, r_proxy z = PsLoop c s) \/ (exists c, r_proxy z = PsGreeting c s) ->
     fst a = true -> bran (bnet z s) (back L) ->
     forall s1 lx, xstep T3 CM fuel s (io_act CM (snd a)) = (s1, lx) ->
     bran (Net s1 (r_server z) (r_up z ++ xwritten lx) dn) (back L ++ map NL lx)) ->
  (fst a = true -> inn = r_in z) -> (fst a = false -> dn = r_down z) ->
  pstep K T2 T3 fuel gp (r_proxy z) a = (p, l) ->
  (match r_proxy z with PsLoop _ _ => False | PsGreeting _ _ => fst a = false | PsEnd _ => True end ->
     inn = r_in z /\ dn = r_down z) ->
  legs (Relay (r_client z) p (r_server z) inn (r_out z ++ xwritten (at_client l))
          (r_up z ++ xwritten (at_server l)) dn) (L ++ map RP l).
Proof.
  intros z L [b a] inn dn p l H SF SB Hi Hd E Hn. cbn [fst snd] in *. unfold legs in *. cbn [r_proxy].
  rewrite front_app, back_app, middle_app, front_p, back_p, middle_p.
  unfold fnet, bnet in *. cbn [r_client r_server r_in r_out r_up r_down].
  destruct (r_proxy z) as [c s|c s|why] eqn:Ez.
  - destruct H as (-> & H2 & H3 & H4 & H5 & H6). destruct b; cbn [pstep] in E.
    + destruct (greeting_side_parts K T2 T3 fuel gp _ _ _ _ _ E) as (s' & lx & X & A1 & A2 & A3).
      rewrite A1, A2, at_client_app, A2, H3, (Hi eq_refl). cbn [map xwritten]. rewrite !app_nil_r.
      specialize (SB s (or_intror (ex_intro _ s2 eq_refl)) eq_refl H6 _ _ X).
      destruct p as [c1 s1'|c1 s1'|why].
      * destruct A3 as (-> & -> & A4 & A5). rewrite server_events_app, H4, A5. repeat split; auto.
      * destruct A3 as (-> & A4 & g & A5 & ->). split; [discriminate|]. split; [exact A4|]. split; [|exact SB].
        exists g. split; [exists []; rewrite server_events_app, H4, A5; reflexivity|]. apply H5.
      * split; [left; split; [reflexivity|]|eauto]. intro g. exists (n_r (front_new g)). apply H5.
    + destruct (Hn eq_refl) as [-> ->]. injection E as <- <-. cbn [map xwritten at_client at_server].
      rewrite !app_nil_r. repeat split; auto.
  - clear Hn. destruct H as (H1 & H2 & (g & H3 & H4) & H5).
    assert (G : greeted_with K (middle L ++ l) g) by now apply greeted_with_app.
    destruct b; cbn [pstep] in E.
    + destruct (server_side_parts K T2 T3 fuel _ _ _ _ _ H1 E) as (s' & lx & acts & c1 & ls & X & R & O & A1 & A2 & A3).
      rewrite A1, A2, (Hi eq_refl).
      specialize (SB s (or_introl (ex_intro _ c eq_refl)) eq_refl H5 _ _ X).
      pose proof (nran_right T1 T2 CM SM fuel _ _ _ _ _ _ H4 O R) as F. cbn [n_l n_r n_right n_left] in F.
      destruct p as [c2 s2'|c2 s2'|why]; [contradiction| |].
      * destruct A3 as (-> & -> & A4 & A5). repeat split; auto. exists g. split; [exact G|exact F].
      * split; [right; exists g, c1; split; [exact G|exact F]|]. eauto.
    + destruct (client_side_parts K T2 T3 fuel _ _ _ _ _ H2 E) as (c1 & lx & acts & s' & ls & X & R & O & A1 & A2 & A3).
      rewrite A1, A2, (Hd eq_refl).
      specialize (SF g c s eq_refl eq_refl H4 _ _ X).
      pose proof (nran_left T3 T4 CM SM fuel _ _ _ _ _ _ H5 O R) as F. cbn [n_l n_r n_right n_left] in F.
      destruct p as [c2 s2'|c2 s2'|why]; [contradiction| |].
      * destruct A3 as (-> & -> & A4 & A5). repeat split; auto. exists g. split; [exact G|exact SF].
      * split; [right; exists g, c1; split; [exact G|exact SF]|]. eauto.
  - destruct (Hn I) as [-> ->]. cbn [pstep] in E. injection E as <- <-. cbn [map xwritten at_client at_server].
    rewrite !app_nil_r. exact H.
Qed.

Lemma legs_step : forall z L a z' l, legs z L -> step z a = (z', l) -> legs z' (L ++ l).
Proof.
  assert (Nil : forall z L z' (l : list (rlog K)), legs z L -> (z, []) = (z', l) -> legs z' (L ++ l)).
  { intros z L z' l H E. injection E as <- <-. now rewrite app_nil_r. }
  intros z L a z' l H E. destruct a as [a|a|a|n|n|n|n]; cbn -[xstep pstep proxy_acts] in E.
  - destruct (conjures a) eqn:C; [eapply Nil; eauto|].
    destruct (xstep T1 CM fuel (r_client z) a) as [x k] eqn:X. injection E as <- <-.
    apply legs_client; [exact H|]. intros g c F. exact (nran_left1 T1 T2 CM SM fuel _ _ _ _ _ _ F C X).
  - destruct (conjures a) eqn:C; [eapply Nil; eauto|].
    destruct (xstep T4 SM fuel (r_server z) a) as [x k] eqn:X. injection E as <- <-.
    apply legs_server; [exact H|]. intros s F. exact (nran_right1 T3 T4 CM SM fuel _ _ _ _ _ _ F C X).
  - destruct (conjures (io_act SM (snd a))) eqn:C; [eapply Nil; eauto|].
    assert (C' : conjures (io_act CM (snd a)) = false) by (destruct (snd a) as [|[[]|]|]; auto).
    unfold proxy_acts in E. destruct (pstep K T2 T3 fuel gp (r_proxy z) a) as [p k] eqn:X.
    injection E as <- <-.
    apply (legs_proxy z L a (r_in z) (r_down z)); auto.
    + intros g c s _ _ F c1 lx Xc. exact (nran_right1 T1 T2 CM SM fuel _ _ _ _ _ _ F C Xc).
    + intros s _ _ F c1 lx Xc. exact (nran_left1 T3 T4 CM SM fuel _ _ _ _ _ _ F C' Xc).
  - destruct (firstn n (r_in z)) as [|b bs] eqn:B; [eapply Nil; eauto|].
    destruct (proxy_reading K T2 T3 (r_proxy z) false) eqn:R; [|eapply Nil; eauto].
    unfold proxy_acts in E. cbn [r_proxy r_client r_server r_in r_out r_up r_down] in E.
    destruct (pstep K T2 T3 fuel gp (r_proxy z) (false, IoRead (Some (b :: bs)))) as [p k] eqn:X.
    injection E as <- <-.
    apply (legs_proxy z L (false, IoRead (Some (b :: bs))) (skipn n (r_in z)) (r_down z)); cbn [fst snd]; auto.
    + intros g c s Ez _ F c1 lx Xc. rewrite Ez in R.
      exact (nran_to_right T1 T2 CM SM fuel _ _ _ _ _ _ _ _ F B R Xc).
    + discriminate.
    + discriminate.
    + destruct (r_proxy z); cbn in R; try discriminate. intros [].
  - destruct (firstn n (r_out z)) as [|b bs] eqn:B; [eapply Nil; eauto|].
    destruct (reading (x_f (r_client z))) eqn:R; [|eapply Nil; eauto].
    destruct (xstep T1 CM fuel (r_client z) (ARead (Some (b :: bs)))) as [x k] eqn:X. injection E as <- <-.
    apply legs_client; [exact H|]. intros g c F.
    exact (nran_to_left T1 T2 CM SM fuel _ _ _ _ _ _ _ _ F B R X).
  - destruct (firstn n (r_up z)) as [|b bs] eqn:B; [eapply Nil; eauto|].
    destruct (reading (x_f (r_server z))) eqn:R; [|eapply Nil; eauto].
    destruct (xstep T4 SM fuel (r_server z) (ARead (Some (b :: bs)))) as [x k] eqn:X. injection E as <- <-.
    apply legs_server; [exact H|]. intros s F.
    exact (nran_to_right T3 T4 CM SM fuel _ _ _ _ _ _ _ _ F B R X).
  - destruct (firstn n (r_down z)) as [|b bs] eqn:B; [eapply Nil; eauto|].
    destruct (proxy_reading K T2 T3 (r_proxy z) true) eqn:R; [|eapply Nil; eauto].
    unfold proxy_acts in E. cbn [r_proxy r_client r_server r_in r_out r_up r_down] in E.
    destruct (pstep K T2 T3 fuel gp (r_proxy z) (true, IoRead (Some (b :: bs)))) as [p k] eqn:X.
    injection E as <- <-.
    apply (legs_proxy z L (true, IoRead (Some (b :: bs))) (r_in z) (skipn n (r_down z))); cbn [fst snd]; auto.
    + discriminate.
    + intros s Ez _ F c1 lx Xc.
      assert (R' : reading (x_f s) = true) by (destruct Ez as [[c Ez]|[c Ez]]; rewrite Ez in R; exact R).
      exact (nran_to_left T3 T4 CM SM fuel _ _ _ _ _ _ _ _ F B R' Xc).
    + discriminate.
    + destruct (r_proxy z); cbn in R; try discriminate. intros [].
Qed.

Lemma relay_legs : forall acts z L, run start acts = (z, L) -> legs z L.
Proof. intros acts z L. apply relay_run_ind; [apply legs_new|]. intros. eapply legs_step; eauto. Qed.

(** The proxy runs as it does alone. *)
Lemma relay_proxy : forall acts z L, run start acts = (z, L) ->
  exists pacts, prun K T2 T3 fuel gp (proxy_start K T2 T3 s2 s3 gq) pacts = (r_proxy z, middle L).
Proof.
  intros acts z L. revert acts z L.
  apply (relay_run_ind (fun z L => exists pacts, prun K T2 T3 fuel gp (proxy_start K T2 T3 s2 s3 gq) pacts = (r_proxy z, middle L))).
  { exists []. reflexivity. }
  intros z L a z' l [pacts H] E.
  assert (Snoc : forall zz a p k, r_proxy zz = r_proxy z -> proxy_acts K T1 T2 T3 T4 fuel gp zz a = (p, k) ->
    exists pacts, prun K T2 T3 fuel gp (proxy_start K T2 T3 s2 s3 gq) pacts = (r_proxy p, middle (L ++ k))).
  { intros zz b p k Ez X. unfold proxy_acts in X. rewrite Ez in X.
    destruct (pstep K T2 T3 fuel gp (r_proxy z) b) as [p1 k1] eqn:S. injection X as <- <-.
    exists (pacts ++ [b]). rewrite middle_app, middle_p. cbn [r_proxy].
    clear - H S. revert H. generalize (proxy_start K T2 T3 s2 s3 gq). generalize (middle L).
    induction pacts as [|a pacts IH]; intros m p0 H; cbn -[pstep] in *.
    - injection H as -> <-. rewrite S. now rewrite app_nil_r.
    - destruct (pstep K T2 T3 fuel gp p0 a) as [p2 k2].
      destruct (prun K T2 T3 fuel gp p2 pacts) as [p3 k3] eqn:R. injection H as H <-; subst p3.
      rewrite (IH _ _ R). now rewrite app_assoc. }
  assert (Nil : (z, []) = (z', l) -> exists pacts, prun K T2 T3 fuel gp (proxy_start K T2 T3 s2 s3 gq) pacts = (r_proxy z', middle (L ++ l))).
  { intro F. injection F as <- <-. rewrite app_nil_r. eauto. }
  destruct a as [a|a|a|n|n|n|n]; cbn -[xstep pstep proxy_acts] in E.
  - destruct (conjures a); [auto|].
    destruct (xstep T1 CM fuel (r_client z) a) as [x k]. injection E as <- <-.
    rewrite middle_app, middle_c, app_nil_r. eauto.
  - destruct (conjures a); [auto|].
    destruct (xstep T4 SM fuel (r_server z) a) as [x k]. injection E as <- <-.
    rewrite middle_app, middle_s, app_nil_r. eauto.
  - destruct (conjures (io_act SM (snd a))); [auto|]. eapply Snoc; eauto.
  - destruct (firstn n (r_in z)) as [|b bs]; [auto|].
    destruct (proxy_reading K T2 T3 (r_proxy z) false); [|auto]. eapply Snoc; [|exact E]. reflexivity.
  - destruct (firstn n (r_out z)) as [|b bs]; [auto|].
    destruct (reading (x_f (r_client z))); [|auto].
    destruct (xstep T1 CM fuel (r_client z) _) as [x k]. injection E as <- <-.
    rewrite middle_app, middle_c, app_nil_r. eauto.
  - destruct (firstn n (r_up z)) as [|b bs]; [auto|].
    destruct (reading (x_f (r_server z))); [|auto].
    destruct (xstep T4 SM fuel (r_server z) _) as [x k]. injection E as <- <-.
    rewrite middle_app, middle_s, app_nil_r. eauto.
  - destruct (firstn n (r_down z)) as [|b bs]; [auto|].
    destruct (proxy_reading K T2 T3 (r_proxy z) true); [|auto]. eapply Snoc; [|exact E]. reflexivity.
Qed.
End Legs.
