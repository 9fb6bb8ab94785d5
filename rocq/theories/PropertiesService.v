(** Properties of the program around the proxy (C63). Vocabulary: SpecService.v.
    [program_runs fuel cfg w L]: a run of the program with configuration [cfg] leads to [w]. *)
From Coq Require Import List NArith Bool PeanoNat Lia.
From Coq Require String.
Import (notations) String.
From Verif Require Import Base Types Codec Handle Client Server ToyCodec ClientExamples
  Stream StreamMachine SpecStream ToyTls ProxyUtil Proxy Service SpecService ServiceProofs ServiceHandles ServiceDiffer.
From Verif Require PropertiesProxy.
Import ListNotations.
Open Scope list_scope.
Open Scope nat_scope.

(** Every conversation is a run of the proxy as in Proxy.v, whatever the other clients and the
    other services do. It uses TLS exactly as configured. *)
Theorem C63_conversations : forall K Tc Ts fuel cfg (w : world K Tc Ts) L i k c p,
  program_runs fuel cfg w L -> nth_error cfg i = Some c -> task_at w i k = Some (TkTalk p) ->
  exists gp gc cs ss acts,
    new_stream (tls_to_clients c) cs /\ new_stream (tls_to_server c) ss /\
    prun K Tc Ts fuel gp (proxy_start K Tc Ts cs ss gc) acts = (p, conversation_of i k L).
Proof.
  intros K Tc Ts fuel cfg w L i k c p R Hc Ht. rewrite <- (configs K Tc Ts fuel cfg w L R i) in Hc.
  exact (conversations K Tc Ts fuel cfg w L i k c (TkTalk p) R Hc Ht).
Qed.
Print Assumptions C63_conversations.

(** The handles of different conversations differ: every conversation has generators of its own,
    both for the commands to its server (the first of [ids]) and for the responses to its client
    (the second, once the proxy was greeted; before that the run of the proxy does not depend on
    it). After 2^64 clients the counters wrap. *)
Theorem C63_handles : forall K Tc Ts fuel cfg (w : world K Tc Ts) L,
  program_runs fuel cfg w L -> clients_at_most (2 ^ 64) w ->
  exists ids : nat -> nat -> N * option N,
    (forall i k p, task_at w i k = Some (TkTalk p) ->
       exists cs ss acts, forall gp,
         match snd (ids i k) with Some n => gp = HGen n 0 | None => True end ->
         prun K Tc Ts fuel gp (proxy_start K Tc Ts cs ss (HGen (fst (ids i k)) 0)) acts =
           (p, conversation_of i k L)) /\
    (forall i k p j m q, task_at w i k = Some (TkTalk p) -> task_at w j m = Some (TkTalk q) ->
       (i, k) <> (j, m) ->
       fst (ids i k) <> fst (ids j m) /\ forall n, snd (ids i k) = Some n -> snd (ids j m) <> Some n).
Proof. exact own_generators. Qed.
Print Assumptions C63_handles.

(** So no handle is given in two conversations. *)
Theorem C63_handles_differ : forall K Tc Ts fuel cfg (w : world K Tc Ts) L,
  program_runs fuel cfg w L -> clients_at_most (2 ^ 64) w ->
  forall i k p j m q, task_at w i k = Some (TkTalk p) -> task_at w j m = Some (TkTalk q) -> (i, k) <> (j, m) ->
  forall h,
    (In h (command_handles (conversation_of i k L)) -> ~ In h (command_handles (conversation_of j m L))) /\
    (In h (response_handles (conversation_of i k L)) -> ~ In h (response_handles (conversation_of j m L))).
Proof. exact handles_differ. Qed.
Print Assumptions C63_handles_differ.

(** A client whose server cannot be reached gets no byte, and nothing is read from it. *)
Theorem C63_unserved : forall K Tc Ts fuel cfg (w : world K Tc Ts) L i k t,
  program_runs fuel cfg w L -> task_at w i k = Some t -> (forall p, t <> TkTalk p) ->
  conversation_of i k L = [].
Proof.
  intros K Tc Ts fuel cfg w L i k t R Ht N.
  assert (Hc : exists c, cfg_at w i = Some c).
  { unfold task_at, tasks_at, cfg_at in *. destruct (nth_error (w_svcs w) i); [cbn; eauto|destruct k; discriminate]. }
  destruct Hc as (c & Hc). pose proof (conversations K Tc Ts fuel cfg w L i k c t R Hc Ht) as C.
  destruct t as [s|s|p| |]; cbn in C; try exact C; try exact (proj1 C). now destruct (N p).
Qed.
Print Assumptions C63_unserved.

(** What a client's task does, be it an error or a panic, changes neither any other task nor the
    service. *)
Theorem C63_isolated : forall K Tc Ts fuel (w : world K Tc Ts) a w' l,
  world_step K Tc Ts fuel w a = (w', l) ->
  (forall j, cfg_at w' j = cfg_at w j) /\
  (forall j, who a <> (j, None) -> listen_at w' j = listen_at w j /\ length (tasks_at w' j) = length (tasks_at w j)) /\
  (forall j m, who a <> (j, Some m) -> task_at w j m <> None -> task_at w' j m = task_at w j m) /\
  (forall j m e, In (WL j m e) l -> who a = (j, Some m)).
Proof. exact frame. Qed.
Print Assumptions C63_isolated.

(** Once it is bound, a service never stops. *)
Theorem C63_listens : forall K Tc Ts fuel (w : world K Tc Ts) acts w' l i,
  world_run K Tc Ts fuel w acts = (w', l) ->
  listen_at w i = Some LsAccept \/ listen_at w i = Some LsHandshake ->
  listen_at w' i = Some LsAccept \/ listen_at w' i = Some LsHandshake.
Proof. intros K Tc Ts fuel w acts w' l i. exact (listening_run K Tc Ts fuel acts w w' l i). Qed.
Print Assumptions C63_listens.

(** Without TLS it is always ready to accept a client, and gives it a task of its own. *)
Theorem C63_accepts : forall K Tc Ts fuel cfg (w : world K Tc Ts) L i c b,
  program_runs fuel cfg w L -> nth_error cfg i = Some c -> tls_to_clients c = false ->
  listen_at w i = Some LsAccept \/ listen_at w i = Some LsHandshake ->
  listen_at w i = Some LsAccept /\
  let w' := fst (world_step K Tc Ts fuel w (WAccept i true b)) in
  tasks_at w' i = tasks_at w i ++ [TkConnect (stream_insecure Tc)] /\ listen_at w' i = Some LsAccept.
Proof.
  intros K Tc Ts fuel cfg w L i c b R Hc B Li. rewrite <- (configs K Tc Ts fuel cfg w L R i) in Hc.
  pose proof (plain_accepts K Tc Ts fuel cfg w L i c R Hc B Li) as A.
  split; [exact A|]. exact (accept_adds K Tc Ts fuel w i c b Hc A B).
Qed.
Print Assumptions C63_accepts.

(** With TLS this is false: the handshake is a part of accepting. A client that connects and then
    does nothing is enough: from then on nobody is served by this service, however many
    others try, until that client's handshake succeeds or fails. *)
Theorem C63_blocked_refuted : forall K Tc Ts fuel cfg i c,
  nth_error cfg i = Some c -> tls_to_clients c = true ->
  exists (w : world K Tc Ts) L, program_runs fuel cfg w L /\ tasks_at w i = [] /\
    forall acts w' L', world_run K Tc Ts fuel w acts = (w', L') ->
      (forall r, ~ In (WAccepted i r) acts) -> tasks_at w' i = [].
Proof.
  intros K Tc Ts fuel cfg i c Hc B.
  set (w0 := world_new K Tc Ts cfg).
  assert (E0 : nth_error (w_svcs w0) i = Some (Svc c LsBind [])).
  { cbn. rewrite nth_error_map, Hc. reflexivity. }
  set (w1 := put_svc K Tc Ts w0 i (Svc c LsAccept [])).
  assert (E1 : nth_error (w_svcs w1) i = Some (Svc c LsAccept [])) by (apply put_eq, (nth_lt _ _ _ E0)).
  set (w2 := put_svc K Tc Ts w1 i (Svc c LsHandshake [])).
  assert (E2 : nth_error (w_svcs w2) i = Some (Svc c LsHandshake [])) by (apply put_eq, (nth_lt _ _ _ E1)).
  assert (S1 : world_step K Tc Ts fuel w0 (WBind i true) = (w1, [])) by (cbn [world_step]; rewrite E0; reflexivity).
  assert (S2 : world_step K Tc Ts fuel w1 (WAccept i true true) = (w2, [])).
  { cbn [world_step]. change (binds_tls (sv_bind c) = true) in B. rewrite E1, B. reflexivity. }
  exists w2, []. split; [exists [WBind i true; WAccept i true true]; cbn [world_run]; fold w0; now rewrite S1, S2|].
  destruct (svc_views K Tc Ts w2 i _ _ _ E2) as (_ & V2 & V3). split; [exact V3|].
  intros acts w' L' H N. destruct (blocked_run K Tc Ts fuel acts w2 w' L' i H N V2) as [_ T].
  rewrite V3 in T. now apply length_zero_iff_nil.
Qed.
Print Assumptions C63_blocked_refuted.

(** The program ends only if no service could be bound; so it never ends during a
    conversation. *)
Theorem C63_end : forall K Tc Ts fuel cfg (w : world K Tc Ts) L,
  program_runs fuel cfg w L -> program_ended w -> forall i, tasks_at w i = [].
Proof. exact ended_no_tasks. Qed.
Print Assumptions C63_end.

(** If the root certificates cannot be loaded when the first connection is made that needs them,
    then no service that connects with TLS ever serves another client, even if they could be
    loaded later. *)
Theorem C63_roots : forall K Tc Ts fuel cfg (w : world K Tc Ts) L i c acts w' L',
  program_runs fuel cfg w L -> nth_error cfg i = Some c -> tls_to_server c = true ->
  w_roots w = RtPoisoned -> world_run K Tc Ts fuel w acts = (w', L') ->
  forall k, (task_at w i k = None \/ exists s, task_at w i k = Some (TkConnect s)) ->
  forall p, task_at w' i k <> Some (TkTalk p).
Proof.
  intros K Tc Ts fuel cfg w L i c acts w' L' R Hc Ct Rt H k Hk p X.
  rewrite <- (configs K Tc Ts fuel cfg w L R i) in Hc.
  destruct (poisoned_run K Tc Ts fuel acts w w' L' i c H Rt Hc Ct) as [_ P].
  specialize (P k). rewrite X in P. apply P. destruct Hk as [-> |(s & ->)]; exact I.
Qed.
Print Assumptions C63_roots.

(** Addresses: what follows the last colon is the port, even if the host contains colons. *)
Theorem C63_addresses : forall b c,
  (exists h p x, (b = BindInsecure h p \/ exists i, b = BindTls h p i) /\
     rsplit_colon (bind_addr b) = Some (h, x) /\ parse x = Some p) /\
  (exists h p x, (c = ConnectInsecure h p \/ c = ConnectTls h p) /\
     rsplit_colon (connect_addr c) = Some (h, x) /\ parse x = Some p).
Proof.
  intros b c. split.
  - destruct b as [h p|h p i]; destruct (port_found h p) as (x & H); exists h, p, x; (split; [eauto|exact H]).
  - destruct c as [h p|h p]; destruct (port_found h p) as (x & H); exists h, p, x; (split; [eauto|exact H]).
Qed.
Print Assumptions C63_addresses.

(** If no port is configured, then it is 993 with TLS and 143 without. *)
Theorem C63_ports : forall h port i,
  let port_of a default := exists x, rsplit_colon a = Some (h, x) /\
    parse x = Some (match port with Some p => p | None => default end) in
  port_of (bind_addr (read_bind (BeInsecure h port))) 143%N /\
  port_of (bind_addr (read_bind (BeTls h port i))) 993%N /\
  port_of (connect_addr (read_connect (CnInsecure h port))) 143%N /\
  port_of (connect_addr (read_connect (CnTls h port))) 993%N.
Proof. intros h port i. repeat split; destruct port; apply port_found. Qed.
Print Assumptions C63_ports.

(** What is printed of a service when the program starts (main.rs:43) tells whether TLS is used, the host, and the port. *)
Theorem C63_shown :
  (forall b b', show_bind b = show_bind b' -> bind_point b = bind_point b') /\
  (forall c c', show_connect c = show_connect c' -> connect_point c = connect_point c').
Proof.
  assert (X : forall h p h' p', show_tls h p <> show_insecure h' p') by (intros; discriminate).
  split.
  - intros [h p|h p i] [h' p'|h' p' i'] E; cbn in *; try (now apply X in E); try (symmetry in E; now apply X in E);
      [destruct (show_insecure_inj _ _ _ _ E) as [-> ->]|destruct (show_tls_inj _ _ _ _ E) as [-> ->]]; reflexivity.
  - intros [h p|h p] [h' p'|h' p'] E; cbn in *; try (now apply X in E); try (symmetry in E; now apply X in E);
      [destruct (show_insecure_inj _ _ _ _ E) as [-> ->]|destruct (show_tls_inj _ _ _ _ E) as [-> ->]]; reflexivity.
Qed.
Print Assumptions C63_shown.

(** The file with the key must contain exactly one, and nothing unreadable. *)
Theorem C63_key : forall file k, load_leaf_key file = inl k <-> file = Some [Some k].
Proof. exact one_key. Qed.
Print Assumptions C63_key.

(** ** Cases *)

Definition T0 : tls := toy_tls 200 false.
Definition sv_plain : service :=
  Service (B "plain") (BindInsecure (B "::1") 143) (ConnectInsecure (B "mail.example") 143).
Definition sv_tls : service :=
  Service (B "tls") (BindTls (B "127.0.0.1") 993 (Identity (B "a.pem") (B "b.pem"))) (ConnectTls (B "mail.example") 993).

(** Two clients of the first service. The server of one closes the connection at once; that of
    the other sends its greeting. *)
Definition sv_acts : list (wact T0 T0) :=
  [WBind 0 true; WBind 1 true; WAccept 1 true true; WAccept 0 true true; WAccept 0 true true;
   WConnect 0 0 true true true; WConnect 0 1 true true true;
   WTalk 0 0 (true, IoPoll); WTalk 0 1 (true, IoPoll); WTalk 0 0 (true, IoRead (Some []));
   WTalk 0 1 (true, IoRead (Some (ln "* OK hello"))); WTalk 0 1 (false, IoPoll);
   WAccept 1 true true; WAccept 0 true true].
Definition sv_world : world toy T0 T0 := fst (world_run toy T0 T0 100 (world_new toy T0 T0 [sv_plain; sv_tls]) sv_acts).
Definition sv_log : list (wlog toy) := snd (world_run toy T0 T0 100 (world_new toy T0 T0 [sv_plain; sv_tls]) sv_acts).

(** The state of a task, in short. *)
Inductive brief : Type := BrConnect | BrHandshake | BrGreeting | BrLoop (f : fut) | BrEnd (w : pend) | BrFailed | BrPanicked.
Definition in_short (t : option (task toy T0 T0)) : option brief :=
  option_map (fun t =>
    match t with
    | TkConnect _ => BrConnect
    | TkHandshake _ => BrHandshake
    | TkTalk (PsGreeting _ _) => BrGreeting
    | TkTalk (PsLoop c _) => BrLoop (x_f c)
    | TkTalk (PsEnd w) => BrEnd w
    | TkFailed => BrFailed
    | TkPanicked => BrPanicked
    end) t.

Example C63_example :
  program_runs 100 [sv_plain; sv_tls] sv_world sv_log /\
  in_short (task_at sv_world 0 1) = Some (BrLoop FSelect) /\
  in_short (task_at sv_world 0 0) = Some (BrEnd PeAborted) /\
  in_short (task_at sv_world 0 2) = Some BrConnect /\
  in_short (task_at sv_world 0 3) = None /\
  length (conversation_of 0 1 sv_log) = 8 /\ length (conversation_of 0 0 sv_log) = 5 /\
  listen_at sv_world 0 = Some LsAccept /\ listen_at sv_world 1 = Some LsHandshake /\
  length (tasks_at sv_world 1) = 0 /\
  connect_addr (sv_connect sv_plain) = B "mail.example:143" /\ bind_addr (sv_bind sv_plain) = B "::1:143" /\
  read_connect (CnTls (B "mail.example") None) = sv_connect sv_tls /\
  show_connect (sv_connect sv_tls) = B "imaps://mail.example:993 (TLS)" /\
  show_bind (sv_bind sv_plain) = B "imap://::1:143 (insecure)".
Proof.
  split; [exists sv_acts; apply surjective_pairing|].
  repeat (split; [vm_compute; reflexivity|]). vm_compute. reflexivity.
Qed.

(** Three clients, two of them with a conversation. *)
(** Two clients do the same. *)
Definition sv_same : list (wlog toy) :=
  snd (world_run toy T0 T0 100 (world_new toy T0 T0 [sv_plain])
    ([WBind 0 true; WAccept 0 true true; WAccept 0 true true;
      WConnect 0 1 true true true; WConnect 0 0 true true true] ++
     map (WTalk 0 0) PropertiesProxy.ex_session ++ map (WTalk 0 1) PropertiesProxy.ex_session)).
Example C63_handles_differ_example :
  command_handles (conversation_of 0 0 sv_same) = [Handle 1 0; Handle 1 1] /\
  command_handles (conversation_of 0 1 sv_same) = [Handle 0 0; Handle 0 1] /\
  response_handles (conversation_of 0 0 sv_same) = [Handle 0 0; Handle 0 1; Handle 0 2] /\
  response_handles (conversation_of 0 1 sv_same) = [Handle 1 0; Handle 1 1; Handle 1 2].
Proof. vm_compute. auto. Qed.

Example C63_handles_example :
  clients_at_most (2 ^ 64) sv_world /\ in_short (task_at sv_world 0 0) = Some (BrEnd PeAborted) /\
  in_short (task_at sv_world 0 1) = Some (BrLoop FSelect) /\
  w_clients sv_world = 2%N /\ w_servers sv_world = 1%N.
Proof.
  split; [|repeat (split; [vm_compute; reflexivity|]); vm_compute; reflexivity].
  intros xs Nd H.
  assert (I : incl xs [(0, 0); (0, 1); (0, 2)]).
  { intros [i k] X. apply H in X. cbn [fst snd] in X. unfold task_at in X. apply nth_error_Some in X.
    destruct i as [|[|i]].
    - replace (length (tasks_at sv_world 0)) with 3 in X by (vm_compute; reflexivity).
      destruct k as [|[|[|k]]]; cbn; auto. exfalso. do 3 apply Nat.succ_lt_mono in X. now apply Nat.nlt_0_r in X.
    - replace (length (tasks_at sv_world 1)) with 0 in X by (vm_compute; reflexivity). now apply Nat.nlt_0_r in X.
    - exfalso. unfold tasks_at in X.
      assert (E : nth_error (w_svcs sv_world) (S (S i)) = None).
      { apply nth_error_None. replace (length (w_svcs sv_world)) with 2 by (vm_compute; reflexivity).
        apply le_n_S, le_n_S, Nat.le_0_l. }
      rewrite E in X. now apply Nat.nlt_0_r in X. }
  apply NoDup_incl_length in I; [|exact Nd]. cbn [length] in I.
  change (2 ^ 64)%N with 18446744073709551616%N. lia.
Qed.

(** A client of the second service is accepted, and panics for want of certificates; the next
    one is accepted as well. *)
Definition rt_acts : list (wact T0 T0) :=
  [WBind 1 true; WAccept 1 true true; WAccepted 1 (Some (toy_session_new : t_st T0)); WAccept 1 true true;
   WAccepted 1 (Some (toy_session_new : t_st T0)); WConnect 1 0 true false true].
Definition rt_run := world_run toy T0 T0 100 (world_new toy T0 T0 [sv_plain; sv_tls]) rt_acts.
Example C63_roots_example :
  program_runs 100 [sv_plain; sv_tls] (fst rt_run) (snd rt_run) /\ w_roots (fst rt_run) = RtPoisoned /\
  in_short (task_at (fst rt_run) 1 0) = Some BrPanicked /\ in_short (task_at (fst rt_run) 1 1) = Some BrConnect.
Proof.
  split; [exists rt_acts; apply surjective_pairing|].
  repeat (split; [vm_compute; reflexivity|]). vm_compute. reflexivity.
Qed.
