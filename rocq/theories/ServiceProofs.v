(** Proofs about the program around the proxy (Service.v). *)
From Coq Require Import List NArith Bool PeanoNat Lia.
From Coq Require Decimal DecimalN.
From Verif Require Import Base Types Codec Handle Client Server Stream StreamMachine ProxyUtil Proxy
  Service SpecService.
Import ListNotations.

(** ** Lists *)

Section Put.
Context {A : Type}.
Lemma put_length : forall n (x : A) l, length (put n x l) = length l.
Proof. induction n as [|n IH]; destruct l; cbn; auto. Qed.
Lemma put_eq : forall n (x : A) l, n < length l -> nth_error (put n x l) n = Some x.
Proof. induction n as [|n IH]; destruct l; cbn; intros; try lia; auto. apply IH. lia. Qed.
Lemma put_neq : forall n m (x : A) l, n <> m -> nth_error (put n x l) m = nth_error l m.
Proof.
  induction n as [|n IH]; destruct l, m; cbn; intros; auto; try congruence.
Qed.
Lemma nth_lt : forall n (l : list A) x, nth_error l n = Some x -> n < length l.
Proof. intros n l x H. apply nth_error_Some. congruence. Qed.
End Put.

(** ** Addresses *)

Lemma rsplit_none : forall x, Forall (fun b => b <> x3a) x -> rsplit_colon x = None.
Proof.
  induction x as [|b x IH]; intro F; [reflexivity|]. inversion F as [|? ? F1 F2]; subst. cbn.
  rewrite (IH F2). destruct (Byte.eqb b x3a) eqn:E; [|reflexivity].
  apply Byte.byte_dec_bl in E. contradiction.
Qed.

Lemma rsplit_app : forall h p, Forall (fun b => b <> x3a) p -> rsplit_colon (h ++ x3a :: p) = Some (h, p).
Proof.
  induction h as [|b h IH]; intros p F; cbn.
  - now rewrite (rsplit_none p F).
  - now rewrite (IH p F).
Qed.

Lemma digits_no_colon : forall d, Forall (fun b => b <> x3a) (digits d).
Proof. induction d; cbn; constructor; auto; discriminate. Qed.

Lemma parse_digits_pos : forall d acc,
  parse_from (N.pos acc) (digits d) = Some (N.pos (Pos.of_uint_acc d acc)).
Proof.
  assert (S : forall (b : byte) (c : N) x acc q, digit b = Some c -> (10 * N.pos acc + c)%N = N.pos q ->
    parse_from (N.pos acc) (b :: x) = parse_from (N.pos q) x).
  { intros b c x acc q H E. cbn [parse_from]. now rewrite H, E. }
  induction d; intro acc; cbn [digits Pos.of_uint_acc]; [reflexivity|..];
    match goal with |- parse_from _ (?b :: ?x) = Some (N.pos (Pos.of_uint_acc _ ?q)) =>
      let n := eval vm_compute in (Byte.to_N b - 48)%N in
      rewrite (S b n x acc q); [apply IHd|reflexivity|lia]
    end.
Qed.

Lemma parse_digits : forall d, parse_from 0 (digits d) = Some (N.of_uint d).
Proof.
  unfold N.of_uint. induction d; cbn [digits Pos.of_uint]; [reflexivity|exact IHd|..];
    exact (parse_digits_pos _ _).
Qed.

Lemma port_found : forall h p, exists x, rsplit_colon (host_port h p) = Some (h, x) /\ parse x = Some p.
Proof.
  intros h p. exists (show_port p). unfold host_port, show_port. split.
  - apply rsplit_app, digits_no_colon.
  - unfold parse. destruct (digits (N.to_uint p)) as [|b x] eqn:E.
    + exfalso. assert (Z : N.to_uint p = Decimal.Nil) by (destruct (N.to_uint p); [reflexivity|discriminate..]).
      pose proof (DecimalN.Unsigned.of_to p) as O. rewrite Z in O. cbn in O. subst p. discriminate.
    + rewrite <- E, parse_digits. now rewrite DecimalN.Unsigned.of_to.
Qed.

Lemma host_port_inj : forall h p h' p', host_port h p = host_port h' p' -> h = h' /\ p = p'.
Proof.
  intros h p h' p' E. destruct (port_found h p) as (x & X1 & X2), (port_found h' p') as (y & Y1 & Y2).
  rewrite E, Y1 in X1. injection X1 as <- <-. rewrite Y2 in X2. now injection X2 as <-.
Qed.

Lemma show_tls_inj : forall h p h' p', show_tls h p = show_tls h' p' -> h = h' /\ p = p'.
Proof. intros h p h' p' E. apply app_inv_head, app_inv_tail in E. now apply host_port_inj. Qed.

Lemma show_insecure_inj : forall h p h' p', show_insecure h p = show_insecure h' p' -> h = h' /\ p = p'.
Proof. intros h p h' p' E. apply app_inv_head, app_inv_tail in E. now apply host_port_inj. Qed.

(** ** Keys *)

Lemma read_keys_all : forall ks acc, read_keys (map Some ks) acc = inl (acc ++ ks).
Proof.
  induction ks as [|k ks IH]; intro acc; cbn; [now rewrite app_nil_r|].
  rewrite IH, <- app_assoc. reflexivity.
Qed.

Lemma read_keys_inl : forall f acc r, read_keys f acc = inl r -> exists ks, f = map Some ks /\ r = acc ++ ks.
Proof.
  induction f as [|[k|] f IH]; intros acc r H; cbn in H.
  - injection H as <-. exists []. now rewrite app_nil_r.
  - apply IH in H as (ks & -> & ->). exists (k :: ks). cbn. now rewrite <- app_assoc.
  - discriminate.
Qed.

Lemma one_key : forall file k, load_leaf_key file = inl k <-> file = Some [Some k].
Proof.
  intros file k. split; [|intros ->; reflexivity]. destruct file as [f|]; cbn; [|discriminate].
  destruct (read_keys f []) as [r|] eqn:E; [|discriminate].
  apply read_keys_inl in E as (ks & -> & ->). cbn.
  destruct ks as [|k' [|]]; cbn; intro H; try discriminate. now injection H as <-.
Qed.

(** ** The conversation and its handle generator *)

Section World.
Context (K : Codecs) (Tc Ts : tls) (fuel : nat).
Notation pstep := (pstep K Tc Ts fuel).
Notation prun := (prun K Tc Ts fuel).
Notation world := (world K Tc Ts).
Notation wstep := (world_step K Tc Ts fuel).
Notation wrun := (world_run K Tc Ts fuel).

Definition greeting_state (p : pstate K Tc Ts) : bool :=
  match p with PsGreeting _ _ => true | _ => false end.

Lemma pstep_gen : forall g g' p a, greeting_state p = false -> pstep g p a = pstep g' p a.
Proof. intros g g' [c s|c s|w] a H; [discriminate|reflexivity..]. Qed.

Lemma pstep_later : forall g p a, greeting_state p = false -> greeting_state (fst (pstep g p a)) = false.
Proof.
  intros g [c s|c s|w] [[] a] H; try discriminate; cbn [Proxy.pstep fst greeting_state]; try reflexivity.
  - unfold server_side. destruct (xstep _ _ _ s _) as [s1 l1]. destruct (is_dead _); [reflexivity|].
    destruct (returned l1); [|reflexivity]. destruct (xstep _ _ _ c _) as [c1 l2].
    destruct (handle_server_event _ _) as [| |o u]; try reflexivity.
    destruct (m_call _ _ _) as [[m e]|]; [|reflexivity]. now destruct (u && _).
  - unfold client_side. destruct (xstep _ _ _ c _) as [c1 l1]. destruct (is_dead _); [reflexivity|].
    destruct (returned l1); [|reflexivity]. destruct (xstep _ _ _ s _) as [s1 l2].
    destruct (handle_client_event _ _) as [| |o u]; try reflexivity.
    destruct (m_call _ _ _) as [[m e]|]; [|reflexivity]. now destruct (u && _).
Qed.

Lemma pstep_greeting : forall g g' p a p' l, pstep g p a = (p', l) -> greeting_state p' = true ->
  pstep g' p a = (p', l).
Proof.
  intros g g' p a p' l H G. destruct (greeting_state p) eqn:P.
  2: pose proof (pstep_later g p a P) as X; rewrite H in X; cbn in X; congruence.
  destruct p as [c s|c s|w]; try discriminate P.
  destruct a as [[] a]; cbn [Proxy.pstep] in *; [|exact H].
  unfold greeting_side in *. destruct (xstep _ _ _ s _) as [s1 l1]. destruct (is_dead _); [exact H|].
  destruct (returned l1) as [[e| | | | |]|]; try exact H. destruct e; try exact H.
  injection H as <- <-. discriminate.
Qed.

Lemma prun_app : forall g a1 a2 p,
  prun g p (a1 ++ a2) = (let '(p1, l1) := prun g p a1 in let '(p2, l2) := prun g p1 a2 in (p2, l1 ++ l2)).
Proof.
  intros g a1. induction a1 as [|a a1 IH]; intros a2 p; cbn [app Proxy.prun].
  - now destruct (prun g p a2).
  - destruct (pstep g p a) as [p1 l1]. rewrite IH. destruct (prun g p1 a1) as [p2 l2].
    destruct (prun g p2 a2) as [p3 l3]. now rewrite app_assoc.
Qed.

Lemma prun_later : forall g acts p, greeting_state p = false -> greeting_state (fst (prun g p acts)) = false.
Proof.
  intros g acts. induction acts as [|a acts IH]; intros p H; cbn [Proxy.prun]; [exact H|].
  pose proof (pstep_later g p a H) as H1. destruct (pstep g p a) as [p1 l1]. cbn in H1.
  pose proof (IH p1 H1) as H2. now destruct (prun g p1 acts).
Qed.

Lemma prun_greeting : forall g g' acts p p' l, prun g p acts = (p', l) -> greeting_state p' = true ->
  prun g' p acts = (p', l).
Proof.
  intros g g' acts. induction acts as [|a acts IH]; intros p p' l H G; cbn [Proxy.prun] in *; [exact H|].
  destruct (pstep g p a) as [p1 l1] eqn:E1. destruct (prun g p1 acts) as [p2 l2] eqn:E2.
  injection H as <- <-.
  assert (G1 : greeting_state p1 = true).
  { destruct (greeting_state p1) eqn:X; [reflexivity|].
    pose proof (prun_later g acts p1 X) as Y. rewrite E2 in Y. cbn in Y. congruence. }
  rewrite (pstep_greeting g g' p a p1 l1 E1 G1), (IH p1 p2 l2 E2 G). reflexivity.
Qed.

Lemma prun_snoc : forall g g' p0 acts p l a p' l', prun g p0 acts = (p, l) -> pstep g' p a = (p', l') ->
  exists g'', prun g'' p0 (acts ++ [a]) = (p', l ++ l').
Proof.
  intros g g' p0 acts p l a p' l' H1 H2. destruct (greeting_state p) eqn:G.
  - exists g'. rewrite prun_app, (prun_greeting g g' acts p0 p l H1 G). cbn [Proxy.prun].
    rewrite H2. now rewrite app_nil_r.
  - exists g. rewrite prun_app, H1. cbn [Proxy.prun]. rewrite (pstep_gen g g' p a G), H2. now rewrite app_nil_r.
Qed.

(** ** What a step changes *)

Lemma at_put_svc : forall (w : world) i v j, i < length (w_svcs w) ->
  nth_error (w_svcs (put_svc K Tc Ts w i v)) j = if Nat.eqb i j then Some v else nth_error (w_svcs w) j.
Proof.
  intros w i v j H. cbn. destruct (Nat.eqb_spec i j) as [<-|N]; [now apply put_eq|now apply put_neq].
Qed.

(** The services after a step. *)
Inductive changed (w : world) : wact Tc Ts -> world -> list (wlog K) -> Prop :=
| ch_none : forall a, changed w a w []
| ch_svc : forall a i cfg ls ls' ts ts' w',
    nth_error (w_svcs w) i = Some (Svc cfg ls ts) -> who a = (i, None) ->
    (ls = LsBind -> ls' = LsAccept \/ ls' = LsStopped) ->
    (ls <> LsBind -> ls' = LsAccept \/ (ls = LsAccept /\ ls' = LsHandshake /\ binds_tls (sv_bind cfg) = true)) ->
    (ls = LsHandshake -> exists r, a = WAccepted i r) ->
    ls <> LsStopped ->
    (ts' = ts \/ (ls' = LsAccept /\ exists c, ts' = ts ++ [TkConnect c] /\
       ((ls = LsAccept /\ binds_tls (sv_bind cfg) = false /\ c = stream_insecure Tc) \/
        (ls = LsHandshake /\ exists t, c = stream_tls Tc t)))) ->
    w_svcs w' = put i (Svc cfg ls' ts') (w_svcs w) -> w_roots w' = w_roots w ->
    changed w a w' []
| ch_task : forall a i k cfg ls ts t t' w' l,
    nth_error (w_svcs w) i = Some (Svc cfg ls ts) -> who a = (i, Some k) ->
    nth_error ts k = Some t ->
    w_svcs w' = put i (Svc cfg ls (put k t' ts)) (w_svcs w) ->
    (forall e, In e l -> exists e', e = WL i k e') ->
    match t, t' with
    | TkConnect c, TkHandshake c' => c' = c /\ l = [] /\ connects_tls (sv_connect cfg) = true /\ w_roots w' = RtReady
    | TkConnect c, TkTalk p => l = [] /\ w_roots w' = w_roots w /\
        exists g s, p = proxy_start K Tc Ts c s g /\ connects_tls (sv_connect cfg) = false /\ s = stream_insecure Ts
    | TkConnect _, TkPanicked => l = [] /\ connects_tls (sv_connect cfg) = true
    | TkConnect _, TkFailed => l = [] /\ w_roots w' = w_roots w
    | TkHandshake c, TkTalk p => l = [] /\ w_roots w' = w_roots w /\
        exists g t, p = proxy_start K Tc Ts c (stream_tls Ts t) g
    | TkHandshake _, TkFailed => l = [] /\ w_roots w' = w_roots w
    | TkTalk p, TkTalk p' => w_roots w' = w_roots w /\
        exists g b l', pstep g p b = (p', l') /\ l = map (WL i k) l'
    | _, _ => False
    end ->
    (w_roots w = RtPoisoned -> w_roots w' = RtPoisoned) ->
    changed w a w' l.

Lemma step_changed : forall w a w' l, wstep w a = (w', l) -> changed w a w' l.
Proof.
  intros w a w' l H. destruct a as [i ok|i ok id|i r|i k ok rt nm|i k r|i k a]; cbn [world_step] in H;
    (destruct (nth_error (w_svcs w) i) as [[cfg ls ts]|] eqn:E; [|injection H as <- <-; constructor]);
    cbn [v_tasks v_cfg] in H.
  - destruct ls; try (injection H as <- <-; constructor). injection H as <- <-.
    eapply ch_svc with (i := i) (ls' := if ok then LsAccept else LsStopped) (ts' := ts);
      try exact E; try reflexivity; try congruence; auto.
    destruct ok; auto.
  - destruct ls; try (injection H as <- <-; constructor). destruct ok; [|injection H as <- <-; constructor].
    destruct (binds_tls (sv_bind cfg)) eqn:B; [destruct id; [|injection H as <- <-; constructor]|];
      injection H as <- <-.
    + eapply ch_svc with (i := i); try exact E; try reflexivity; try congruence; auto.
    + eapply ch_svc with (i := i) (ls' := LsAccept); try exact E; try reflexivity; try congruence; auto.
      right. split; [reflexivity|]. eexists. split; [reflexivity|]. auto.
  - destruct ls; try (injection H as <- <-; constructor). destruct r as [t|]; injection H as <- <-.
    + eapply ch_svc with (i := i) (ls' := LsAccept); try exact E; try reflexivity; try congruence; eauto.
      right. split; [reflexivity|]. eexists. split; [reflexivity|]. eauto.
    + eapply ch_svc with (i := i) (ls' := LsAccept); try exact E; try reflexivity; try congruence; eauto.
  - destruct (nth_error ts k) as [[c|c|p| |]|] eqn:T; try (injection H as <- <-; constructor).
    destruct ok; [destruct (connects_tls (sv_connect cfg)) eqn:C|]; injection H as <- <-.
    + eapply ch_task; try exact E; try exact T; try reflexivity; [contradiction| |].
      * destruct (w_roots w) eqn:R; destruct rt, nm; cbn; rewrite ?C; auto.
      * cbn. now intros ->.
    + eapply ch_task; try exact E; try exact T; try reflexivity; [contradiction| |auto].
      cbn. split; [reflexivity|]. split; [reflexivity|]. eauto.
    + eapply ch_task; try exact E; try exact T; try reflexivity; [contradiction| |auto]. cbn. auto.
  - destruct (nth_error ts k) as [[c|c|p| |]|] eqn:T; try (injection H as <- <-; constructor).
    destruct r as [t|]; injection H as <- <-.
    + eapply ch_task; try exact E; try exact T; try reflexivity; [contradiction| |auto].
      cbn. split; [reflexivity|]. split; [reflexivity|]. eauto.
    + eapply ch_task; try exact E; try exact T; try reflexivity; [contradiction| |auto]. cbn. auto.
  - destruct (nth_error ts k) as [[c|c|p| |]|] eqn:T; try (injection H as <- <-; constructor).
    cbn [hgengen_generate] in H. destruct (Proxy.pstep _ _ _ _ _ p a) as [p' l'] eqn:P. injection H as <- <-.
    eapply ch_task; try exact E; try exact T; try reflexivity.
    + intros e I. apply in_map_iff in I as (e' & <- & _). eauto.
    + cbn. split; [reflexivity|]. eauto.
    + auto.
Qed.

(** ** Views *)

Lemma svc_views : forall (w : world) i cfg ls ts, nth_error (w_svcs w) i = Some (Svc cfg ls ts) ->
  cfg_at w i = Some cfg /\ listen_at w i = Some ls /\ tasks_at w i = ts.
Proof. intros w i cfg ls ts E. unfold cfg_at, listen_at, tasks_at. now rewrite E. Qed.

Lemma views_eq : forall (w w' : world) j, nth_error (w_svcs w') j = nth_error (w_svcs w) j ->
  cfg_at w' j = cfg_at w j /\ listen_at w' j = listen_at w j /\ tasks_at w' j = tasks_at w j.
Proof. intros w w' j E. unfold cfg_at, listen_at, tasks_at. now rewrite E. Qed.

Lemma frame : forall w a w' l, wstep w a = (w', l) ->
  (forall j, cfg_at w' j = cfg_at w j) /\
  (forall j, who a <> (j, None) -> listen_at w' j = listen_at w j /\ length (tasks_at w' j) = length (tasks_at w j)) /\
  (forall j m, who a <> (j, Some m) -> task_at w j m <> None -> task_at w' j m = task_at w j m) /\
  (forall j m e, In (WL j m e) l -> who a = (j, Some m)).
Proof.
  intros w a w' l H. apply step_changed in H as [a0|a0 i cfg ls ls' ts ts' w1 E W _ _ _ _ Ht Es _
                                                |a0 i k cfg ls ts t t' w1 l1 E W T Es L _ _].
  - repeat split; auto. contradiction.
  - destruct (svc_views w i cfg ls ts E) as (V1 & V2 & V3).
    assert (E' : nth_error (w_svcs w1) i = Some (Svc cfg ls' ts')) by (rewrite Es; apply put_eq, (nth_lt _ _ _ E)).
    destruct (svc_views w1 i cfg ls' ts' E') as (V1' & V2' & V3').
    assert (O : forall j, i <> j -> cfg_at w1 j = cfg_at w j /\ listen_at w1 j = listen_at w j /\ tasks_at w1 j = tasks_at w j).
    { intros j N. apply views_eq. rewrite Es. now apply put_neq. }
    split; [intro j; destruct (Nat.eq_dec i j) as [<-|N]; [congruence|now apply O]|].
    split; [|split; [|contradiction]].
    + intros j N. destruct (Nat.eq_dec i j) as [<-|N']; [congruence|]. destruct (O j N') as (_ & O2 & O3).
      now rewrite O2, O3.
    + intros j m _ S. unfold task_at in *. destruct (Nat.eq_dec i j) as [<-|N].
      * rewrite V3 in *. rewrite V3'. destruct Ht as [->|(_ & c & -> & _)]; [reflexivity|].
        apply nth_error_app1. now apply nth_error_Some.
      * destruct (O j N) as (_ & _ & O3). now rewrite O3.
  - destruct (svc_views w i cfg ls ts E) as (V1 & V2 & V3).
    assert (E' : nth_error (w_svcs w1) i = Some (Svc cfg ls (put k t' ts))) by (rewrite Es; apply put_eq, (nth_lt _ _ _ E)).
    destruct (svc_views w1 i cfg ls (put k t' ts) E') as (V1' & V2' & V3').
    assert (O : forall j, i <> j -> cfg_at w1 j = cfg_at w j /\ listen_at w1 j = listen_at w j /\ tasks_at w1 j = tasks_at w j).
    { intros j N. apply views_eq. rewrite Es. now apply put_neq. }
    split; [intro j; destruct (Nat.eq_dec i j) as [<-|N]; [congruence|now apply O]|].
    split; [|split].
    + intros j _. destruct (Nat.eq_dec i j) as [<-|N'].
      * rewrite V2, V2', V3, V3', put_length. auto.
      * destruct (O j N') as (_ & O2 & O3). now rewrite O2, O3.
    + intros j m N _. unfold task_at. destruct (Nat.eq_dec i j) as [<-|N'].
      * rewrite V3, V3'. apply put_neq. congruence.
      * destruct (O j N') as (_ & _ & O3). now rewrite O3.
    + intros j m e I. apply L in I as (e' & X). injection X as <- <- _. exact W.
Qed.

Lemma wrun_app : forall a1 a2 w,
  wrun w (a1 ++ a2) = (let '(w1, l1) := wrun w a1 in let '(w2, l2) := wrun w1 a2 in (w2, l1 ++ l2)).
Proof.
  induction a1 as [|a a1 IH]; intros a2 w; cbn [app world_run].
  - now destruct (wrun w a2).
  - destruct (wstep w a) as [w1 l1]. rewrite IH. destruct (wrun w1 a1) as [w2 l2].
    destruct (wrun w2 a2) as [w3 l3]. now rewrite app_assoc.
Qed.

(** Induction over runs. *)
Lemma runs_ind : forall cfg (P : world -> list (wlog K) -> Prop),
  P (world_new K Tc Ts cfg) [] ->
  (forall w L a w' l, P w L -> wstep w a = (w', l) -> P w' (L ++ l)) ->
  forall w L, program_runs fuel cfg w L -> P w L.
Proof.
  intros cfg P P0 PS w L (acts & H). revert w L H.
  induction acts as [|a acts IH] using rev_ind; intros w L H.
  - cbn in H. now injection H as <- <-.
  - rewrite wrun_app in H. destruct (wrun _ acts) as [w1 l1] eqn:E1. cbn [world_run] in H.
    destruct (wstep w1 a) as [w2 l2] eqn:E2. injection H as <- <-. rewrite app_nil_r.
    exact (PS w1 l1 a w2 l2 (IH w1 l1 eq_refl) E2).
Qed.

(** ** The invariant *)

Definition conv (cfg : service) (t : task K Tc Ts) (l : list (plog K)) : Prop :=
  match t with
  | TkConnect c | TkHandshake c => l = [] /\ new_stream (binds_tls (sv_bind cfg)) c
  | TkTalk p => exists gp gc c s acts,
      new_stream (binds_tls (sv_bind cfg)) c /\ new_stream (connects_tls (sv_connect cfg)) s /\
      prun gp (proxy_start K Tc Ts c s gc) acts = (p, l)
  | TkFailed | TkPanicked => l = []
  end.
Definition good (i : nat) (v : svc K Tc Ts) (L : list (wlog K)) : Prop :=
  (forall k t, nth_error (v_tasks v) k = Some t -> conv (v_cfg v) t (conversation_of i k L)) /\
  (forall k, nth_error (v_tasks v) k = None -> conversation_of i k L = []) /\
  (v_listen v = LsBind \/ v_listen v = LsStopped -> v_tasks v = []) /\
  (v_listen v = LsHandshake -> binds_tls (sv_bind (v_cfg v)) = true) /\
  (forall k c, nth_error (v_tasks v) k = Some (TkHandshake c) -> connects_tls (sv_connect (v_cfg v)) = true).
Definition inv (w : world) (L : list (wlog K)) : Prop :=
  forall i v, nth_error (w_svcs w) i = Some v -> good i v L.

Lemma conversation_app : forall i k (L l : list (wlog K)),
  conversation_of i k (L ++ l) = conversation_of i k L ++ conversation_of i k l.
Proof. intros. apply flat_map_app. Qed.

Lemma conversation_other : forall i k j m (l : list (wlog K)), (forall e, In e l -> exists e', e = WL j m e') ->
  (i, k) <> (j, m) -> conversation_of i k l = [].
Proof.
  intros i k j m l F N. induction l as [|e l IH]; [reflexivity|].
  destruct (F e (or_introl eq_refl)) as (e' & ->). unfold conversation_of in *. cbn [flat_map].
  rewrite IH by (intros x I; apply F; now right).
  destruct (Nat.eqb_spec i j); destruct (Nat.eqb_spec k m); cbn; auto. congruence.
Qed.

Lemma conversation_own : forall i k l, conversation_of i k (map (@WL K i k) l) = l.
Proof.
  intros i k l. induction l as [|e l IH]; [reflexivity|]. unfold conversation_of in *. cbn [map flat_map].
  rewrite !Nat.eqb_refl. cbn. now rewrite IH.
Qed.

Lemma good_other : forall i v L (l : list (wlog K)), (forall k, conversation_of i k l = []) -> good i v L -> good i v (L ++ l).
Proof.
  intros i v L l Z (G1 & G2 & G). split; [|split; [|exact G]]; intros k; rewrite conversation_app, Z, app_nil_r; auto.
Qed.

Lemma inv_new : forall cfg, inv (world_new K Tc Ts cfg) [].
Proof.
  intros cfg i v E. cbn in E. apply nth_error_In, in_map_iff in E as (c & <- & _).
  repeat split; cbn; auto; try discriminate; intros k; destruct k; discriminate.
Qed.

Lemma inv_step : forall w L a w' l, inv w L -> wstep w a = (w', l) -> inv w' (L ++ l).
Proof.
  intros w L a w' l I H. apply step_changed in H as [a0|a0 i cfg ls ls' ts ts' w1 E W B1 B2 B3 B4 Ht Es _
                                                |a0 i k cfg ls ts t t' w1 l1 E W T Es LL TT _].
  - rewrite app_nil_r. exact I.
  - rewrite app_nil_r. intros j v Ev. rewrite Es in Ev. destruct (Nat.eq_dec i j) as [<-|N].
    + rewrite put_eq in Ev by exact (nth_lt _ _ _ E). injection Ev as <-.
      destruct (I i _ E) as (G1 & G2 & G3 & G4 & G5). cbn [v_cfg v_listen v_tasks] in *.
      assert (C : ts' = ts -> good i (Svc cfg ls' ts') L).
      { intros ->. repeat split; cbn [v_cfg v_listen v_tasks]; auto.
        - intro X. destruct ls; [now apply G3; auto|..|congruence];
            destruct (B2 ltac:(discriminate)) as [->|(_ & -> & _)]; destruct X; discriminate.
        - intros ->. destruct ls; [destruct (B1 eq_refl); discriminate|..|congruence];
            destruct (B2 ltac:(discriminate)) as [X|(_ & _ & X)]; try discriminate X; exact X. }
      destruct Ht as [X|(-> & c & -> & Hc)]; [now apply C|].
      assert (Nc : new_stream (binds_tls (sv_bind cfg)) c).
      { destruct Hc as [(-> & -> & ->)|(-> & t & ->)]; cbn; [reflexivity|]. rewrite (G4 eq_refl). cbn. eauto. }
      repeat split; cbn [v_cfg v_listen v_tasks]; try (intros [X|X]; discriminate X); try discriminate.
      * intros k t Et. destruct (Nat.lt_ge_cases k (length ts)) as [Lt|Ge].
        -- rewrite nth_error_app1 in Et by exact Lt. now apply G1.
        -- rewrite nth_error_app2 in Et by exact Ge.
           destruct (k - length ts) as [|n] eqn:D; cbn in Et; [|destruct n; discriminate].
           injection Et as <-. cbn. split; [|exact Nc]. apply G2. now apply nth_error_None.
      * intros k Et. apply G2. apply nth_error_None. apply nth_error_None in Et. rewrite app_length in Et. cbn in Et. lia.
      * intros k c' Et. destruct (Nat.lt_ge_cases k (length ts)) as [Lt|Ge].
        -- rewrite nth_error_app1 in Et by exact Lt. exact (G5 k c' Et).
        -- rewrite nth_error_app2 in Et by exact Ge.
           destruct (k - length ts) as [|n] eqn:D; cbn in Et; [discriminate|destruct n; discriminate].
    + rewrite put_neq in Ev by exact N. now apply I.
  - intros j v Ev. rewrite Es in Ev. destruct (Nat.eq_dec i j) as [<-|N].
    + rewrite put_eq in Ev by exact (nth_lt _ _ _ E). injection Ev as <-.
      destruct (I i _ E) as (G1 & G2 & G3 & G4 & G5). cbn [v_cfg v_listen v_tasks] in *.
      repeat split; cbn [v_cfg v_listen v_tasks]; auto.
      * intros m t'' Et. rewrite conversation_app. destruct (Nat.eq_dec k m) as [<-|N].
        -- rewrite put_eq in Et by exact (nth_lt _ _ _ T). injection Et as <-.
           pose proof (G1 k t T) as C.
           destruct t as [c|c|p| |], t' as [c'|c'|p'| |]; try contradiction; cbn [conv] in *.
           ++ destruct TT as (-> & -> & _). cbn. now rewrite app_nil_r.
           ++ destruct TT as (-> & _ & g & s & -> & Cn & ->). destruct C as [C1 C2]. rewrite C1.
              exists g, g, c, (stream_insecure Ts), []. rewrite Cn. cbn. auto.
           ++ destruct TT as (-> & _). destruct C as [-> _]. reflexivity.
           ++ destruct TT as (-> & _). destruct C as [-> _]. reflexivity.
           ++ destruct TT as (-> & _ & g & s & ->). destruct C as [C1 C2]. rewrite C1.
              exists g, g, c, (stream_tls Ts s), []. rewrite (G5 k c T). cbn. eauto.
           ++ destruct TT as (-> & _). destruct C as [-> _]. reflexivity.
           ++ destruct TT as (_ & g & b & l' & P & ->). rewrite conversation_own.
              destruct C as (gp & gc & c & s & acts & C1 & C2 & C3).
              destruct (prun_snoc _ _ _ _ _ _ _ _ _ C3 P) as (g'' & C4). eauto 10.
        -- rewrite put_neq in Et by exact N. rewrite (conversation_other i m i k l1 LL) by congruence.
           rewrite app_nil_r. now apply G1.
      * intros m Et. rewrite conversation_app.
        assert (N : k <> m). { intros <-. rewrite put_eq in Et by exact (nth_lt _ _ _ T). discriminate. }
        rewrite put_neq in Et by exact N. rewrite (conversation_other i m i k l1 LL) by congruence.
        rewrite app_nil_r. now apply G2.
      * intro X. specialize (G3 X). subst ts. destruct k; discriminate T.
      * intros m c' Et. destruct (Nat.eq_dec k m) as [<-|N].
        -- rewrite put_eq in Et by exact (nth_lt _ _ _ T). injection Et as ->.
           destruct t; try contradiction. now destruct TT as (_ & _ & X & _).
        -- rewrite put_neq in Et by exact N. exact (G5 m c' Et).
    + rewrite put_neq in Ev by exact N. apply good_other; [|now apply I].
      intro m. apply (conversation_other j m i k l1 LL). congruence.
Qed.

Lemma runs_inv : forall cfg w L, program_runs fuel cfg w L -> inv w L.
Proof.
  intros cfg w L R. apply (runs_ind cfg inv); auto using inv_new. intros. eapply inv_step; eauto.
Qed.

(** ** Consequences *)

Lemma conversations : forall cfg w L i k c t, program_runs fuel cfg w L ->
  cfg_at w i = Some c -> task_at w i k = Some t -> conv c t (conversation_of i k L).
Proof.
  intros cfg w L i k c t R Hc Ht. unfold cfg_at, task_at, tasks_at in *.
  destruct (nth_error (w_svcs w) i) as [v|] eqn:E; [|discriminate]. cbn in Hc. injection Hc as <-.
  now apply (runs_inv cfg w L R i v E).
Qed.

Lemma configs : forall cfg (w : world) L, program_runs fuel cfg w L -> forall i, cfg_at w i = nth_error cfg i.
Proof.
  intros cfg w L R i. revert w L R. apply (runs_ind cfg (fun w _ => cfg_at w i = nth_error cfg i)).
  - unfold cfg_at. cbn. rewrite nth_error_map. now destruct (nth_error cfg i).
  - intros w L a w' l P H. destruct (frame _ _ _ _ H) as (F & _). now rewrite F.
Qed.

(** Bound services listen for ever. *)
Definition listening (x : option listen) : Prop := x = Some LsAccept \/ x = Some LsHandshake.

Lemma listening_step : forall (w : world) a w' l i, wstep w a = (w', l) -> listening (listen_at w i) -> listening (listen_at w' i).
Proof.
  intros w a w' l i H Li. pose proof (frame _ _ _ _ H) as (_ & F & _). revert F.
  apply step_changed in H as [a0|a0 j cfg ls ls' ts ts' w1 E W B1 B2 B3 B4 Ht Es _
                             |a0 j k cfg ls ts t t' w1 l1 E W T Es LL TT _]; intro F; [exact Li|..].
  - destruct (Nat.eq_dec i j) as [->|N].
    + destruct (svc_views w j _ _ _ E) as (_ & V2 & _).
      assert (E' : nth_error (w_svcs w1) j = Some (Svc cfg ls' ts')) by (rewrite Es; apply put_eq, (nth_lt _ _ _ E)).
      destruct (svc_views w1 j _ _ _ E') as (_ & V2' & _). rewrite V2'. unfold listening in *. rewrite V2 in Li.
      destruct (B2 ltac:(intros ->; destruct Li; discriminate)) as [->|(_ & -> & _)]; auto.
    + destruct (F i) as [-> _]; [congruence|exact Li].
  - destruct (F i) as [-> _]; [congruence|exact Li].
Qed.

Lemma listening_run : forall acts (w w' : world) l i, wrun w acts = (w', l) -> listening (listen_at w i) -> listening (listen_at w' i).
Proof.
  induction acts as [|a acts IH]; intros w w' l i H Li; cbn in H.
  - now injection H as <- <-.
  - destruct (wstep w a) as [w1 l1] eqn:E1. destruct (wrun w1 acts) as [w2 l2] eqn:E2. injection H as <- <-.
    eapply IH; [exact E2|]. eapply listening_step; eauto.
Qed.

Lemma plain_accepts : forall cfg (w : world) L i c, program_runs fuel cfg w L -> cfg_at w i = Some c ->
  binds_tls (sv_bind c) = false -> listening (listen_at w i) -> listen_at w i = Some LsAccept.
Proof.
  intros cfg w L i c R Hc B [Li|Li]; [exact Li|]. unfold cfg_at, listen_at in *.
  destruct (nth_error (w_svcs w) i) as [v|] eqn:E; [|discriminate]. cbn in *. injection Hc as <-. injection Li as Li.
  destruct (runs_inv cfg w L R i v E) as (_ & _ & _ & G & _). rewrite (G Li) in B. discriminate.
Qed.

Lemma accept_adds : forall (w : world) i c b, cfg_at w i = Some c -> listen_at w i = Some LsAccept ->
  binds_tls (sv_bind c) = false ->
  tasks_at (fst (wstep w (WAccept i true b))) i = tasks_at w i ++ [TkConnect (stream_insecure Tc)] /\
  listen_at (fst (wstep w (WAccept i true b))) i = Some LsAccept.
Proof.
  intros w i c b Hc Li B. unfold cfg_at, listen_at, tasks_at in *. cbn [world_step].
  destruct (nth_error (w_svcs w) i) as [[cf ls ts]|] eqn:E; [|discriminate]. cbn in *.
  injection Hc as ->. injection Li as ->. rewrite B. cbn. rewrite put_eq by exact (nth_lt _ _ _ E). auto.
Qed.

(** A client that does not complete the handshake. *)
Lemma blocked_step : forall (w : world) a w' l i, wstep w a = (w', l) -> (forall r, a <> WAccepted i r) ->
  listen_at w i = Some LsHandshake ->
  listen_at w' i = Some LsHandshake /\ length (tasks_at w' i) = length (tasks_at w i).
Proof.
  intros w a w' l i H N Li. pose proof (frame _ _ _ _ H) as (_ & F & _). revert F N.
  apply step_changed in H as [a0|a0 j cfg ls ls' ts ts' w1 E W B1 B2 B3 B4 Ht Es _
                             |a0 j k cfg ls ts t t' w1 l1 E W T Es LL TT _]; intros F N; [auto|..].
  - destruct (Nat.eq_dec i j) as [->|Nj].
    + destruct (svc_views w j _ _ _ E) as (_ & V2 & _). rewrite V2 in Li. injection Li as ->.
      destruct (B3 eq_refl) as (r & ->). exfalso. now apply (N r).
    + destruct (F i) as [F1 F2]; [congruence|]. rewrite F1, F2. auto.
  - destruct (F i) as [F1 F2]; [congruence|]. rewrite F1, F2. auto.
Qed.

Lemma blocked_run : forall acts (w w' : world) l i, wrun w acts = (w', l) ->
  (forall r, ~ In (WAccepted i r) acts) -> listen_at w i = Some LsHandshake ->
  listen_at w' i = Some LsHandshake /\ length (tasks_at w' i) = length (tasks_at w i).
Proof.
  induction acts as [|a acts IH]; intros w w' l i H N Li; cbn in H.
  - injection H as <- <-. auto.
  - destruct (wstep w a) as [w1 l1] eqn:E1. destruct (wrun w1 acts) as [w2 l2] eqn:E2. injection H as <- <-.
    destruct (blocked_step w a w1 l1 i E1) as [L1 T1]; [|exact Li|].
    { intros r ->. apply (N r). now left. }
    destruct (IH w1 w2 l2 i E2) as [L2 T2]; [|exact L1|].
    { intros r I. apply (N r). now right. }
    split; [exact L2|congruence].
Qed.

(** The end of the program. *)
Lemma ended_no_tasks : forall cfg (w : world) L, program_runs fuel cfg w L -> program_ended w ->
  forall i, tasks_at w i = [].
Proof.
  intros cfg w L R E i. unfold tasks_at. destruct (nth_error (w_svcs w) i) as [v|] eqn:Ev; [|reflexivity].
  destruct (runs_inv cfg w L R i v Ev) as (_ & _ & G & _). apply G. right.
  unfold program_ended in E. rewrite Forall_forall in E. apply E. eapply nth_error_In; exact Ev.
Qed.

(** Root certificates. *)
Definition unserved (t : option (task K Tc Ts)) : Prop :=
  match t with Some (TkHandshake _) | Some (TkTalk _) => False | _ => True end.

Lemma poisoned_step : forall (w : world) a w' l i c, wstep w a = (w', l) -> w_roots w = RtPoisoned ->
  cfg_at w i = Some c -> connects_tls (sv_connect c) = true ->
  w_roots w' = RtPoisoned /\ forall k, unserved (task_at w i k) -> unserved (task_at w' i k).
Proof.
  intros w a w' l i cf H Rt Hc Ct. apply step_changed in H as [a0|a0 j cfg ls ls' ts ts' w1 E W B1 B2 B3 B4 Ht Es R
                             |a0 j k cfg ls ts t t' w1 l1 E W T Es LL TT R]; [auto|..].
  - split; [congruence|]. intros k X. unfold task_at, tasks_at in *. rewrite Es.
    destruct (Nat.eq_dec j i) as [<-|N]; [|now rewrite put_neq by exact N].
    rewrite put_eq by exact (nth_lt _ _ _ E). rewrite E in X. cbn in *.
    destruct Ht as [->|(_ & c' & -> & _)]; [exact X|].
    destruct (Nat.lt_ge_cases k (length ts)) as [Lt|Ge].
    + now rewrite nth_error_app1 by exact Lt.
    + rewrite nth_error_app2 by exact Ge. destruct (k - length ts) as [|n]; [exact I|destruct n; exact I].
  - split; [auto|]. intros m X. unfold task_at, tasks_at in *. rewrite Es.
    destruct (Nat.eq_dec j i) as [<-|N]; [|now rewrite put_neq by exact N].
    rewrite put_eq by exact (nth_lt _ _ _ E). rewrite E in X. cbn in *.
    destruct (Nat.eq_dec k m) as [<-|N]; [|now rewrite put_neq by exact N].
    rewrite put_eq by exact (nth_lt _ _ _ T). rewrite T in X.
    destruct (svc_views w j _ _ _ E) as (V1 & _). rewrite V1 in Hc. injection Hc as ->.
    destruct t as [c'|c'|p| |], t' as [d|d|q| |]; try contradiction; try exact I.
    + destruct TT as (_ & _ & _ & Y). rewrite (R Rt) in Y. discriminate.
    + destruct TT as (_ & _ & g & s & _ & Y & _). congruence.
Qed.

Lemma poisoned_run : forall acts (w w' : world) l i c, wrun w acts = (w', l) -> w_roots w = RtPoisoned ->
  cfg_at w i = Some c -> connects_tls (sv_connect c) = true ->
  w_roots w' = RtPoisoned /\ forall k, unserved (task_at w i k) -> unserved (task_at w' i k).
Proof.
  induction acts as [|a acts IH]; intros w w' l i c H R Hc Ct; cbn in H.
  - injection H as <- <-. auto.
  - destruct (wstep w a) as [w1 l1] eqn:E1. destruct (wrun w1 acts) as [w2 l2] eqn:E2. injection H as <- <-.
    destruct (poisoned_step w a w1 l1 i c E1 R Hc Ct) as [R1 T1].
    destruct (frame _ _ _ _ E1) as (F & _).
    destruct (IH w1 w2 l2 i c E2 R1) as [R2 T2]; [now rewrite F|exact Ct|]. auto.
Qed.
End World.
