(** The relation between runs of the stream and runs of API calls. *)
From Coq Require Import List NArith Bool PeanoNat Lia.
From Verif Require Import Base Types Codec Handle Receive ClientSend Client ServerSend Server
  SpecClient SpecServer Stream StreamMachine SpecStream StreamProofs StreamThms ClientThms
  ServerThms.
Import ListNotations.

Lemma calls_app : forall M (a b : list (xlog M)), calls (a ++ b) = calls a ++ calls b.
Proof. intros M a b. induction a as [|[] a IH]; cbn; now rewrite ?IH. Qed.
Lemma call_entries_app : forall M (a b : list (xlog M)),
  call_entries (a ++ b) = call_entries a ++ call_entries b.
Proof. intros M a b. induction a as [|[] a IH]; cbn; now rewrite ?IH. Qed.

Lemma call_run_app : forall M cs1 cs2 m, call_run M m (cs1 ++ cs2) =
  match call_run M m cs1 with
  | None => None
  | Some (m', l) => match call_run M m' cs2 with None => None | Some (m'', l') => Some (m'', l ++ l') end
  end.
Proof.
  intros M cs1. induction cs1 as [|c cs1 IH]; intros cs2 m; cbn.
  - now destruct (call_run M m cs2) as [[? ?]|].
  - destruct (call_step M m c) as [[m1 e]|]; [|reflexivity]. rewrite IH.
    destruct (call_run M m1 cs1) as [[m2 l2]|]; [|reflexivity].
    now destruct (call_run M m2 cs2) as [[? ?]|].
Qed.

Section Transport.
Context (T : tls) (M : machine) (fuel : nat).

(** [l] takes the state from [m] to [m']; if it contains a panic, that is a panic of [m']. *)
Definition moves (m : m_st M) (l : list (xlog M)) (m' : m_st M) : Prop :=
  call_run M m (calls l) = Some (m', call_entries l).
Definition blames (m : m_st M) : Prop := exists c, call_step M m c = None.

Lemma moves_nil : forall m l, calls l = [] -> moves m l m.
Proof.
  intros m l H. unfold moves. rewrite H. cbn. f_equal. f_equal.
  induction l as [|[] l IH]; cbn in *; try discriminate; auto.
Qed.

Lemma moves_app : forall m1 l1 m2 l2 m3, moves m1 l1 m2 -> moves m2 l2 m3 -> moves m1 (l1 ++ l2) m3.
Proof.
  intros m1 l1 m2 l2 m3 H1 H2. unfold moves in *.
  now rewrite calls_app, call_entries_app, call_run_app, H1, H2.
Qed.

Lemma moves_quiet : forall m1 l1 m2 l2, moves m1 l1 m2 -> calls l2 = [] -> moves m1 (l1 ++ l2) m2.
Proof. intros. eapply moves_app; eauto. now apply moves_nil. Qed.

(** Result of a piece of a run. *)
Definition fair (m : m_st M) (l : list (xlog M)) (m' : m_st M) : Prop :=
  moves m l m' /\ (In XPanic l -> blames m').

Lemma fail_fair : forall (s : stream T) m m1 l r x' l', moves m l m1 -> ~ In XPanic l ->
  fail T M s m1 l r = (x', l') -> fair m l' (x_m x').
Proof.
  intros s m m1 l r x' l' H P E. unfold fail in E.
  destruct r; apply pair_equal_spec in E as [<- <-]; (split; [now apply moves_quiet|]);
    intro F; apply in_app_or in F as [F|[F|[]]]; try (now apply P in F); discriminate.
Qed.

Lemma sync_fair : forall (s : stream T) m x' l', sync T M fuel s m = (x', l') -> fair m l' (x_m x').
Proof.
  intros s m x' l' E. unfold sync in E.
  destruct (sync_input T M fuel s m) as [[[s1 m1] l1] r1] eqn:D.
  assert (A : match m1 with Some m1 => moves m l1 m1 /\ ~ In XPanic l1 | None => moves m l1 m /\ blames m end).
  { assert (N : moves m [] m /\ ~ In (@XPanic M) []) by (split; [now apply moves_nil|auto]).
    assert (G : forall b, match m_enqueue M m b with
      | Some m1 => moves m [XGive b] m1 /\ ~ In XPanic [@XGive M b]
      | None => moves m [XPanic] m /\ blames m end).
    { intro b. destruct (m_enqueue M m b) as [m'|] eqn:E1.
      - split; [unfold moves; cbn; now rewrite E1|intros [F|[]]; discriminate].
      - split; [now apply moves_nil|]. exists (ScGive b). cbn. now rewrite E1. }
    unfold sync_input in D. destruct (x_tls s) as [t|].
    - destruct (decrypt T fuel t (x_rbuf s)) as [[t1 rb] [[|c b]| | |]];
        try (injection D as <- <- <- <-; exact N). specialize (G (c :: b)).
      destruct (m_enqueue M m (c :: b)); injection D as <- <- <- <-; exact G.
    - destruct (x_rbuf s) as [|c b]; [injection D as <- <- <- <-; exact N|]. specialize (G (c :: b)).
      destruct (m_enqueue M m (c :: b)); injection D as <- <- <- <-; exact G. }
  destruct m1 as [m1|].
  2:{ injection E as <- <-. destruct A as [A1 A2]. split; auto. }
  destruct A as [A1 A2]. destruct r1 as [r1|]; [eapply fail_fair; eauto|].
  destruct (m_next M m1) as [[m2 r]|] eqn:N.
  2:{ injection E as <- <-. split; [now apply moves_quiet|]. intros _. exists ScNext. cbn. now rewrite N. }
  assert (Q : moves m (l1 ++ [XNext r]) m2).
  { eapply moves_app; [exact A1|]. unfold moves. cbn. now rewrite N. }
  assert (P : ~ In XPanic (l1 ++ [XNext r])).
  { intro F. apply in_app_or in F as [F|[F|[]]]; [now apply A2|discriminate]. }
  assert (W : forall v s2 l2, l2 = (l1 ++ [XNext r]) ++ [XRet v] -> x_m x' = m2 -> l2 = l' -> x_s x' = s2 ->
    fair m l' (x_m x')).
  { intros v s2 l2 -> -> <- _. split; [now apply moves_quiet|]. intro F.
    apply in_app_or in F as [F|[F|[]]]; [now apply P in F|discriminate]. }
  destruct r as [e| |b|e].
  - injection E as <- <-. eapply W; reflexivity.
  - destruct (sync_output T fuel s1 []) as [s2 [e|]]; [eapply fail_fair; eauto|].
    injection E as <- <-. split; auto. intro F. now apply P in F.
  - destruct (sync_output T fuel s1 b) as [s2 [e|]]; [eapply fail_fair; eauto|].
    injection E as <- <-. split; auto. intro F. now apply P in F.
  - injection E as <- <-. eapply W; reflexivity.
Qed.

Lemma start_flush_fair : forall (s : stream T) m x' l', start_flush T M fuel s m = (x', l') ->
  fair m l' (x_m x').
Proof.
  intros s m x' l' E. unfold start_flush in E.
  assert (N : moves m [] m) by now apply moves_nil.
  destruct (x_tls s) as [t|].
  - destruct (t_flush T t) as [t1|]; [|eapply fail_fair; eauto].
    destruct (sync_output T fuel _ []) as [s2 [e|]]; [eapply fail_fair; eauto|].
    injection E as <- <-. now split.
  - injection E as <- <-. now split.
Qed.

Lemma xstep_fair : forall x a x' l', xstep T M fuel x a = (x', l') -> fair (x_m x) l' (x_m x').
Proof.
  intros x a x' l' E.
  assert (N : fair (x_m x) [] (x_m x)) by (split; [now apply moves_nil|intros []]).
  assert (C : forall h m l m', (forall l, calls (h :: l) = calls l) -> h <> XPanic ->
    (forall l, call_entries (h :: l) = call_entries l) ->
    fair m l m' -> fair m (h :: l) m').
  { intros h m l m' H1 H2 H3 [F1 F2]. split; [unfold moves; now rewrite H1, H3|].
    intros [F|F]; [congruence|auto]. }
  destruct a as [| |r|r|ok| |o]; cbn [xstep] in E.
  - destruct (x_f x); try (injection E as <- <-; exact N).
    destruct (sync T M fuel (x_s x) (x_m x)) as [x1 l1] eqn:S. injection E as <- <-.
    apply C; try reflexivity; [discriminate|]. eapply sync_fair; eauto.
  - destruct (x_f x); try (injection E as <- <-; exact N).
    destruct (start_flush T M fuel (x_s x) (x_m x)) as [x1 l1] eqn:S. injection E as <- <-.
    apply C; try reflexivity; [discriminate|]. eapply start_flush_fair; eauto.
  - destruct (reading (x_f x)); [|injection E as <- <-; exact N].
    destruct r as [[|b r]|].
    + injection E as <- <-. apply C; try reflexivity; [discriminate|]. apply C; try reflexivity; [discriminate|exact N].
    + destruct (sync T M fuel _ (x_m x)) as [x1 l1] eqn:S. injection E as <- <-.
      apply C; try reflexivity; [discriminate|]. eapply sync_fair; eauto.
    + injection E as <- <-. apply C; try reflexivity; [discriminate|exact N].
  - destruct (writing (x_f x)); [|injection E as <- <-; exact N].
    destruct r as [[|n]|].
    + injection E as <- <-. apply C; try reflexivity; [discriminate|]. apply C; try reflexivity; [discriminate|exact N].
    + destruct (Nat.leb (S n) (length (x_wbuf (x_s x)))); [|injection E as <- <-; exact N].
      cbn [x_wbuf] in E. destruct (skipn (S n) (x_wbuf (x_s x))).
      * destruct (x_f x); try (apply pair_equal_spec in E as [<- <-]; apply C; try reflexivity; [discriminate|exact N]).
        destruct (sync T M fuel _ (x_m x)) as [x1 l1] eqn:S. apply pair_equal_spec in E as [<- <-].
        apply C; try reflexivity; [discriminate|]. eapply sync_fair; eauto.
      * apply pair_equal_spec in E as [<- <-]. apply C; try reflexivity; [discriminate|exact N].
    + injection E as <- <-. apply C; try reflexivity; [discriminate|exact N].
  - destruct (x_f x); try (injection E as <- <-; exact N).
    injection E as <- <-. apply C; try reflexivity; [discriminate|exact N].
  - destruct (pending (x_f x)); injection E as <- <-; [|exact N]. apply C; try reflexivity; [discriminate|exact N].
  - destruct (x_f x); try (injection E as <- <-; exact N).
    destruct (m_call M (x_m x) o) as [[m1 r]|] eqn:S; injection E as <- <-; cbn [x_m x_set_f].
    + split; [unfold moves; cbn; now rewrite S|]. intros [F|[]]; discriminate.
    + split; [now apply moves_nil|]. intros _. exists (ScCall o). cbn. now rewrite S.
Qed.

(** The state in a stream runs as it does alone, with the calls in the order of the log. *)
Theorem stream_runs_state : forall s m f acts x l,
  xrun T M fuel (XState s m f) acts = (x, l) ->
  call_run M m (calls l) = Some (x_m x, call_entries l).
Proof.
  intros s m f acts x l.
  eapply (xrun_ind T M fuel (fun x l => moves m l (x_m x))).
  - now apply moves_nil.
  - intros x1 l1 a x2 l2 H E. apply xstep_fair in E as [E _]. eapply moves_app; eauto.
Qed.

(** A state that never panics alone does not panic in a stream. *)
Theorem stream_no_panic : forall s m f acts x l,
  (forall cs, call_run M m cs <> None) ->
  xrun T M fuel (XState s m f) acts = (x, l) -> ~ In XPanic l.
Proof.
  intros s m f acts x l H. 
  enough (G : xrun T M fuel (XState s m f) acts = (x, l) -> moves m l (x_m x) /\ ~ In XPanic l)
    by (intro E; now apply G in E as [_ E]).
  eapply (xrun_ind T M fuel (fun x l => moves m l (x_m x) /\ ~ In XPanic l)).
  - split; [now apply moves_nil|intros []].
  - intros x1 l1 a x2 l2 [G1 G2] E. apply xstep_fair in E as [E1 E2].
    assert (Q : moves m (l1 ++ l2) (x_m x2)) by (eapply moves_app; eauto).
    split; [exact Q|]. intro F. apply in_app_or in F as [F|F]; [now apply G2|].
    destruct (E2 F) as (c & Hc). apply (H (calls (l1 ++ l2) ++ [c])).
    rewrite call_run_app, Q. cbn. now rewrite Hc.
Qed.
End Transport.

(** Without TLS the future is dead only after a panic. *)
Lemma plain_alive : forall T M fuel m acts x l,
  xrun T M fuel (XState (stream_insecure T) m FIdle) acts = (x, l) ->
  ~ In XHang l /\ (x_f x = FDead -> In XPanic l).
Proof.
  intros T M fuel m acts x l.
  enough (G : xrun T M fuel (XState (stream_insecure T) m FIdle) acts = (x, l) ->
    x_tls (x_s x) = None /\ ~ In XHang l /\ (x_f x = FDead -> In XPanic l)) by (intro E; now apply G in E).
  eapply (xrun_ind T M fuel (fun x l => x_tls (x_s x) = None /\ ~ In XHang l /\ (x_f x = FDead -> In XPanic l))).
  - cbn. intuition discriminate.
  - assert (S : forall s1 m1 x' l', x_tls s1 = None -> sync T M fuel s1 m1 = (x', l') ->
      x_tls (x_s x') = None /\ ~ In XHang l' /\ (x_f x' = FDead -> In XPanic l')).
    { intros s1 m1 x' l' H E. destruct (sync_input T M fuel s1 m1) as [[[s2 m2] l2] r2] eqn:D.
      assert (I : x_tls s2 = None /\ ~ In XHang l2 /\ r2 = None /\ (m2 = None -> In XPanic l2)).
      { unfold sync_input in D. rewrite H in D. destruct (x_rbuf s1); [|destruct (m_enqueue _ _ _)];
          injection D as <- <- <- <-; cbn; intuition discriminate. }
      destruct I as (I1 & I2 & -> & I4). unfold sync in E. rewrite D in E.
      destruct m2 as [m2|]; [|injection E as <- <-; cbn; auto].
      destruct (m_next M m2) as [[m3 r]|].
      2:{ injection E as <- <-; cbn. split; [auto|]. split; [|intros _; apply in_or_app; cbn; auto].
          intro F. apply in_app_or in F as [F|[F|[]]]; [auto|discriminate]. }
      assert (P : ~ In XHang (l2 ++ [XNext r])).
      { intro F. apply in_app_or in F as [F|[F|[]]]; [auto|discriminate]. }
      assert (NA : forall s3, next_await T s3 <> FDead) by (intro s3; unfold next_await; destruct (x_wbuf s3); discriminate).
      assert (Z : forall v, ~ In XHang ((l2 ++ [XNext r]) ++ [XRet v])).
      { intros v F. apply in_app_or in F as [F|[F|[]]]; [auto|discriminate]. }
      unfold sync_output in E. rewrite I1 in E.
      destruct r; injection E as <- <-; cbn [x_s x_f x_tls]; (split; [auto|]); (split; [auto|]);
        intro F; try discriminate; now apply NA in F. }
    intros x1 l1 a x2 l2 (H1 & H2 & H3) E.
    assert (Q : x_tls (x_s x2) = None /\ ~ In XHang l2 /\ (x_f x2 = FDead -> x_f x1 = FDead \/ In XPanic l2)).
    { assert (N : x_tls (x_s x1) = None /\ ~ In (@XHang M) [] /\ (x_f x1 = FDead -> x_f x1 = FDead \/ In (@XPanic M) []))
        by (cbn; auto).
      assert (Q : forall s1 h, x_tls s1 = None -> h <> XHang ->
        (let '(x', l) := sync T M fuel s1 (x_m x1) in (x', h :: l)) = (x2, l2) ->
        x_tls (x_s x2) = None /\ ~ In XHang l2 /\ (x_f x2 = FDead -> x_f x1 = FDead \/ In XPanic l2)).
      { intros s1 h Hs Hh F. destruct (sync T M fuel s1 (x_m x1)) as [x' l'] eqn:D.
        apply pair_equal_spec in F as [<- <-]. apply S in D as (D1 & D2 & D3); [|exact Hs].
        cbn. intuition. }
      destruct a as [| |r|r|ok| |o]; cbn [xstep] in E.
      - destruct (x_f x1) in E; try (injection E as <- <-; exact N). eapply Q; [| |exact E]; [auto|discriminate].
      - unfold start_flush in E. rewrite H1 in E.
        destruct (x_f x1) in E; injection E as <- <-; try exact N. cbn. unfold flush_await.
        destruct (x_wbuf (x_s x1)); intuition discriminate.
      - destruct (reading (x_f x1)) eqn:R; [|injection E as <- <-; exact N].
        destruct r as [[|b r]|].
        + injection E as <- <-; cbn; intuition discriminate.
        + eapply Q; [| |exact E]; [auto|discriminate].
        + injection E as <- <-; cbn; intuition discriminate.
      - destruct (writing (x_f x1)) eqn:R; [|injection E as <- <-; exact N].
        destruct r as [[|n]|]; try (injection E as <- <-; cbn; intuition discriminate; fail).
        destruct (Nat.leb (Datatypes.S n) _); [|injection E as <- <-; exact N]. cbn [x_wbuf] in E.
        destruct (skipn (Datatypes.S n) (x_wbuf (x_s x1))).
        + destruct (x_f x1) in E; 
            try (apply pair_equal_spec in E as [<- <-]; cbn; intuition discriminate).
          eapply Q; [| |exact E]; [auto|discriminate].
        + apply pair_equal_spec in E as [<- <-]; cbn. intuition discriminate.
      - destruct (x_f x1) in E; injection E as <- <-; try exact N. cbn; intuition discriminate.
      - destruct (pending (x_f x1)); injection E as <- <-; [|exact N]. cbn; intuition discriminate.
      - destruct (x_f x1) in E; try (injection E as <- <-; exact N).
        destruct (m_call M (x_m x1) o) as [[m1 r]|]; injection E as <- <-; cbn; intuition discriminate. }
    destruct Q as (Q1 & Q2 & Q3). split; [exact Q1|]. split.
    + intro F. apply in_app_or in F as [F|F]; auto.
    + intro F. apply in_or_app. destruct (Q3 F) as [G|G]; auto.
Qed.

(** ** Client *)

Lemma client_view_rx : forall K g, flat_map (@client_view K) (map ClRx g) = [].
Proof. intros K g. induction g; cbn; auto. Qed.

Lemma client_call_step : forall K c o c' e, call_step (client_machine K) c o = Some (c', e) ->
  exists l, client_step K c (client_cop o) = (Some c', l) /\ flat_map client_view l = [e].
Proof.
  intros K c o c' e E. destruct o as [o|b|].
  - unfold call_step in E. cbn [m_call client_machine] in E.
    destruct (client_step K c (capp_op o)) as [oc le] eqn:S.
    destruct oc as [c1|]; [|discriminate]. destruct le as [|e1 [|? ?]]; try discriminate.
    injection E as <- <-. exists [e1]. split; [exact S|].
    destruct o as [cmd|d|]; cbn in S.
    + destruct (client_enqueue_command c cmd). now injection S as _ <-.
    + destruct (client_set_authenticate_data K c d) as [[? ?]|]; [|discriminate]. now injection S as _ <-.
    + destruct (client_set_idle_done K c) as [[? ?]|]; [|discriminate]. now injection S as _ <-.
  - cbn in *. destruct (client_enqueue_input c b); [|discriminate]. injection E as <- <-. eauto.
  - cbn -[client_next] in *. destruct (client_next K c) as [[c1 g] r] eqn:N.
    destruct (mres_of r) as [r'|] eqn:R; [|discriminate]. injection E as <- <-.
    assert (P : c_is_panic r = false) by (destruct r; try discriminate; reflexivity). rewrite P.
    eexists. split; [reflexivity|]. rewrite flat_map_app, client_view_rx. cbn. now rewrite R.
Qed.

Lemma client_call_run : forall K cs c c' l, call_run (client_machine K) c cs = Some (c', l) ->
  exists lc, client_run K c (map client_cop cs) = (Some c', lc) /\ flat_map client_view lc = l.
Proof.
  intros K cs. induction cs as [|o cs IH]; intros c c' l E; cbn [call_run] in E.
  - injection E as <- <-. exists []. auto.
  - destruct (call_step (client_machine K) c o) as [[c1 e]|] eqn:S; [|discriminate].
    destruct (call_run (client_machine K) c1 cs) as [[c2 l2]|] eqn:R; [|discriminate].
    injection E as <- <-. apply client_call_step in S as (l1 & S1 & S2).
    apply IH in R as (l3 & R1 & R2). exists (l1 ++ l3). cbn [map client_run]. rewrite S1, R1.
    split; [reflexivity|]. now rewrite flat_map_app, S2, R2.
Qed.

(** A client in a stream is in a state that it reaches alone, with the same results. *)
Theorem client_in_stream : forall K relaxed g T fuel s f acts x l,
  xrun T (client_machine K) fuel (@XState T (client_machine K) s (client_new g relaxed) f) acts = (x, l) ->
  exists lc, ran K relaxed g (map client_cop (calls l)) (x_m x) lc /\
    flat_map client_view lc = call_entries l.
Proof.
  intros K relaxed g T fuel s f acts x l E. apply stream_runs_state in E.
  apply client_call_run in E. exact E.
Qed.

Lemma client_calls_live : forall K relaxed g cs, no_trailing K relaxed -> single_lines K ->
  call_run (client_machine K) (client_new g relaxed) cs <> None.
Proof.
  intros K relaxed g cs H1 H2. induction cs as [|o cs IH] using rev_ind; [discriminate|].
  rewrite call_run_app. destruct (call_run (client_machine K) (client_new g relaxed) cs) as [[c l]|] eqn:R;
    [|now contradiction IH]. clear IH. cbn [call_run].
  apply client_call_run in R as (lc & R & _).
  destruct (no_panic K relaxed g (map client_cop cs ++ [client_cop o]) H1 H2) as (c' & l' & N).
  unfold ran in N.
  assert (A : forall ops1 ops2 c0, client_run K c0 (ops1 ++ ops2) =
    match client_run K c0 ops1 with (None, l) => (None, l)
    | (Some c1, l) => let '(c2, l2) := client_run K c1 ops2 in (c2, l ++ l2) end).
  { induction ops1 as [|p ops1 IH]; intros ops2 c0; cbn.
    - now destruct (client_run K c0 ops2).
    - destruct (client_step K c0 p) as [[c1|] l1]; [|reflexivity]. rewrite IH.
      destruct (client_run K c1 ops1) as [[c2|] l2]; [|reflexivity].
      destruct (client_run K c2 ops2) as [? l3]. now rewrite app_assoc. }
  rewrite A, R in N. cbn [client_run] in N.
  destruct (client_step K c (client_cop o)) as [[c1|] l1] eqn:S; [|discriminate].
  enough (Q : call_step (client_machine K) c o <> None).
  { now destruct (call_step (client_machine K) c o) as [[? ?]|]. }
  destruct o as [o|b|].
  - cbn [client_cop] in S. unfold call_step. cbn [m_call client_machine]. rewrite S.
    enough (exists e, l1 = [e]) as (e & ->) by (cbn; discriminate).
    destruct o as [cmd|d|]; cbn in S.
    + destruct (client_enqueue_command c cmd). injection S as _ <-. eauto.
    + destruct (client_set_authenticate_data K c d) as [[? ?]|]; [|discriminate]. injection S as _ <-. eauto.
    + destruct (client_set_idle_done K c) as [[? ?]|]; [|discriminate]. injection S as _ <-. eauto.
  - cbn in *. destruct (client_enqueue_input c b); discriminate.
  - cbn -[client_next] in *. destruct (client_next K c) as [[c2 rx] r] eqn:E.
    destruct (returns K relaxed g _ _ _ R _ _ _ E) as [E1 E2].
    destruct r; try discriminate; try (now contradiction E1); try (now contradiction E2).
Qed.

(** ** Server *)
Lemma server_view_rx : forall K g, flat_map (@server_view K) (map SlRx g) = [].
Proof. intros K g. induction g; cbn; auto. Qed.

Lemma sapp_log : forall K s o s' l, server_step K s (sapp_op o) = (Some s', l) ->
  exists e, l = [e] /\ @server_view K e = [XCall (o : m_op (server_machine K)) e].
Proof.
  intros K s o s' l E. destruct o as [r|q|t|q|t]; cbn in E.
  - destruct (server_enqueue_response s r). injection E as _ <-. eauto.
  - destruct (server_authenticate_continue s q). injection E as _ <-. eauto.
  - destruct (server_authenticate_finish s t) as [[? ?]|]; [|discriminate]. injection E as _ <-. eauto.
  - destruct (server_idle_accept s q) as [[? ?]|]; [|discriminate]. injection E as _ <-. eauto.
  - destruct (server_idle_reject s t) as [[? ?]|]; [|discriminate]. injection E as _ <-. eauto.
Qed.

Lemma server_call_step : forall K c o c' e, call_step (server_machine K) c o = Some (c', e) ->
  exists l, server_step K c (server_sop o) = (Some c', l) /\ flat_map server_view l = [e].
Proof.
  intros K c o c' e E. destruct o as [o|b|].
  - unfold call_step in E. cbn [m_call server_machine] in E.
    destruct (server_step K c (sapp_op o)) as [oc le] eqn:S.
    destruct oc as [c1|]; [|discriminate]. destruct le as [|e1 [|? ?]]; try discriminate.
    injection E as <- <-. exists [e1]. split; [exact S|].
    apply sapp_log in S as (e2 & E2 & S). injection E2 as <-. cbn [flat_map]. now rewrite S.
  - cbn in *. destruct (server_enqueue_input c b); [|discriminate]. injection E as <- <-. eauto.
  - cbn -[server_next] in *. destruct (server_next K c) as [[c1 g] r] eqn:N.
    destruct (mres_of r) as [r'|] eqn:R; [|discriminate]. injection E as <- <-.
    assert (P : s_is_panic r = false) by (destruct r; try discriminate; reflexivity). rewrite P.
    eexists. split; [reflexivity|]. rewrite flat_map_app, server_view_rx. cbn. now rewrite R.
Qed.

Lemma server_call_run : forall K cs c c' l, call_run (server_machine K) c cs = Some (c', l) ->
  exists lc, server_run K c (map server_sop cs) = (Some c', lc) /\ flat_map server_view lc = l.
Proof.
  intros K cs. induction cs as [|o cs IH]; intros c c' l E; cbn [call_run] in E.
  - injection E as <- <-. exists []. auto.
  - destruct (call_step (server_machine K) c o) as [[c1 e]|] eqn:S; [|discriminate].
    destruct (call_run (server_machine K) c1 cs) as [[c2 l2]|] eqn:R; [|discriminate].
    injection E as <- <-. apply server_call_step in S as (l1 & S1 & S2).
    apply IH in R as (l3 & R1 & R2). exists (l1 ++ l3). cbn [map server_run]. rewrite S1, R1.
    split; [reflexivity|]. now rewrite flat_map_app, S2, R2.
Qed.

Theorem server_in_stream : forall K g o gr T fuel s f acts x l,
  xrun T (server_machine K) fuel (@XState T (server_machine K) s (server_new g o gr) f) acts = (x, l) ->
  exists ls, sran K g o gr (map server_sop (calls l)) (x_m x) ls /\
    flat_map server_view ls = call_entries l.
Proof.
  intros K g o gr T fuel s f acts x l E. apply stream_runs_state in E.
  apply server_call_run in E. exact E.
Qed.

Lemma server_calls_live : forall K g o gr cs, sno_trailing K o ->
  call_run (server_machine K) (server_new g o gr) cs <> None.
Proof.
  intros K g o gr cs H1. induction cs as [|p cs IH] using rev_ind; [discriminate|].
  rewrite call_run_app. destruct (call_run (server_machine K) (server_new g o gr) cs) as [[c l]|] eqn:R;
    [|now contradiction IH]. clear IH. cbn [call_run].
  apply server_call_run in R as (lc & R & _).
  destruct (s_no_panic K g o gr (map server_sop cs ++ [server_sop p]) H1) as (c' & l' & N).
  unfold sran in N.
  assert (A : forall ops1 ops2 c0, server_run K c0 (ops1 ++ ops2) =
    match server_run K c0 ops1 with (None, l) => (None, l)
    | (Some c1, l) => let '(c2, l2) := server_run K c1 ops2 in (c2, l ++ l2) end).
  { induction ops1 as [|q ops1 IH]; intros ops2 c0; cbn.
    - now destruct (server_run K c0 ops2).
    - destruct (server_step K c0 q) as [[c1|] l1]; [|reflexivity]. rewrite IH.
      destruct (server_run K c1 ops1) as [[c2|] l2]; [|reflexivity].
      destruct (server_run K c2 ops2) as [? l3]. now rewrite app_assoc. }
  rewrite A, R in N. cbn [server_run] in N.
  destruct (server_step K c (server_sop p)) as [[c1|] l1] eqn:S; [|discriminate].
  enough (Q : call_step (server_machine K) c p <> None).
  { now destruct (call_step (server_machine K) c p) as [[? ?]|]. }
  destruct p as [p|b|].
  - cbn [server_sop] in S. unfold call_step. cbn [m_call server_machine]. rewrite S.
    apply sapp_log in S as (e & -> & _). cbn. discriminate.
  - cbn in *. destruct (server_enqueue_input c b); discriminate.
  - cbn -[server_next] in *. destruct (server_next K c) as [[c2 rx] r] eqn:E.
    destruct (s_returns K g o gr _ _ _ R _ _ _ E) as [E1 E2].
    destruct r; try discriminate; try (now contradiction E1); try (now contradiction E2).
Qed.
