(** Model of the program around the proxy: proxy/src/config.rs, proxy/src/main.rs and
    proxy/src/proxy.rs:29-184 (everything before the conversation, for which see Proxy.v).

    Not modelled: how the configuration file is parsed, the arguments of the program, logging, and how
    certificates and keys are parsed. The TLS handshakes are single steps that yield a session
    (see Stream.v) or an error. *)
From Coq Require Import List NArith Bool PeanoNat Decimal.
From Coq Require String.
Import (notations) String.
From Verif Require Import Base Types Codec Handle Client Server Stream StreamMachine ProxyUtil Proxy.
Import ListNotations.
Open Scope list_scope.

(** ** proxy/src/config.rs *)

(** proxy/src/config.rs:88-96 [Identity], the two paths. *)
Record identity : Type := Identity { id_chain : bytes; id_key : bytes }.

(** proxy/src/config.rs:41-60 [Bind]. *)
Inductive bind_cfg : Type :=
| BindInsecure (host : bytes) (port : N)
| BindTls (host : bytes) (port : N) (i : identity).

(** proxy/src/config.rs:101-118 [Connect]. *)
Inductive connect_cfg : Type :=
| ConnectInsecure (host : bytes) (port : N)
| ConnectTls (host : bytes) (port : N).

(** proxy/src/config.rs:29-36 [Service]. *)
Record service : Type := Service { sv_name : bytes; sv_bind : bind_cfg; sv_connect : connect_cfg }.

(** proxy/src/config.rs:9-15: the port if none is configured ([serde(default)]). *)
Definition default_imap_port : N := 143.
Definition default_imaps_port : N := 993.
Definition port_or (default : N) (configured : option N) : N :=
  match configured with Some p => p | None => default end.

(** The entries of the file for [Bind] and [Connect], where the port may be missing, and what is
    read, proxy/src/config.rs:47-58 and 107-116. *)
Inductive bind_entry : Type :=
| BeInsecure (host : bytes) (port : option N)
| BeTls (host : bytes) (port : option N) (i : identity).
Inductive connect_entry : Type :=
| CnInsecure (host : bytes) (port : option N)
| CnTls (host : bytes) (port : option N).
Definition read_bind (e : bind_entry) : bind_cfg :=
  match e with
  | BeInsecure h p => BindInsecure h (port_or default_imap_port p)
  | BeTls h p i => BindTls h (port_or default_imaps_port p) i
  end.
Definition read_connect (e : connect_entry) : connect_cfg :=
  match e with
  | CnInsecure h p => ConnectInsecure h (port_or default_imap_port p)
  | CnTls h p => ConnectTls h (port_or default_imaps_port p)
  end.

(** [Display] for [u16]. *)
Fixpoint digits (d : uint) : bytes :=
  match d with
  | Nil => []
  | D0 d => x30 :: digits d | D1 d => x31 :: digits d | D2 d => x32 :: digits d
  | D3 d => x33 :: digits d | D4 d => x34 :: digits d | D5 d => x35 :: digits d
  | D6 d => x36 :: digits d | D7 d => x37 :: digits d | D8 d => x38 :: digits d
  | D9 d => x39 :: digits d
  end.
Definition show_port (p : N) : bytes := digits (N.to_uint p).

(** proxy/src/config.rs:64-70 and 122-128 [addr_port]. *)
Definition host_port (host : bytes) (port : N) : bytes := host ++ x3a :: show_port port.
Definition bind_addr (b : bind_cfg) : bytes :=
  match b with BindInsecure h p => host_port h p | BindTls h p _ => host_port h p end.
Definition connect_addr (c : connect_cfg) : bytes :=
  match c with ConnectInsecure h p => host_port h p | ConnectTls h p => host_port h p end.

(** proxy/src/config.rs:73-84 and 130-141 [Display]. *)
Definition show_tls (host : bytes) (port : N) : bytes :=
  String.list_byte_of_string "imaps://" ++ host_port host port ++ String.list_byte_of_string " (TLS)".
Definition show_insecure (host : bytes) (port : N) : bytes :=
  String.list_byte_of_string "imap://" ++ host_port host port ++ String.list_byte_of_string " (insecure)".
Definition show_bind (b : bind_cfg) : bytes :=
  match b with BindInsecure h p => show_insecure h p | BindTls h p _ => show_tls h p end.
Definition show_connect (c : connect_cfg) : bytes :=
  match c with ConnectInsecure h p => show_insecure h p | ConnectTls h p => show_tls h p end.

Definition binds_tls (b : bind_cfg) : bool := match b with BindTls _ _ _ => true | _ => false end.
Definition connects_tls (c : connect_cfg) : bool := match c with ConnectTls _ _ => true | _ => false end.

(** ** proxy/src/util.rs:168-195 [load_leaf_key_pem]

    [file]: [None] if it cannot be opened, else the keys found in it, [None] for one that cannot
    be read. *)
Inductive key_error : Type := KeyIo | KeyCount (found : nat).
Fixpoint read_keys (keys : list (option bytes)) (acc : list bytes) : list bytes + key_error :=
  match keys with
  | [] => inl acc
  | None :: _ => inr KeyIo
  | Some k :: keys' => read_keys keys' (acc ++ [k])
  end.
Definition load_leaf_key (file : option (list (option bytes))) : bytes + key_error :=
  match file with
  | None => inr KeyIo
  | Some keys =>
      match read_keys keys [] with
      | inr e => inr e
      | inl [k] => inl k
      | inl ks => inr (KeyCount (length ks))
      end
  end.

(** ** proxy/src/main.rs *)

Section World.
Context (K : Codecs) (Tc Ts : tls) (fuel : nat).

(** The task of one client, proxy/src/main.rs:79-86 and 91-95 [handle_client]. *)
Inductive task : Type :=
| TkConnect (c : stream Tc)            (** awaits [TcpStream::connect], proxy/src/proxy.rs:143 *)
| TkHandshake (c : stream Tc)          (** awaits [connector.connect], proxy/src/proxy.rs:162 *)
| TkTalk (p : pstate K Tc Ts)          (** [start_conversation], proxy/src/proxy.rs:187-236 *)
| TkFailed                             (** an error was logged *)
| TkPanicked.

(** The task of a service, proxy/src/main.rs:58-88 [handle_service]. *)
Inductive listen : Type :=
| LsBind                               (** awaits [TcpListener::bind], proxy/src/proxy.rs:70 *)
| LsAccept                             (** awaits [listener.accept], proxy/src/proxy.rs:80 *)
| LsHandshake                          (** awaits [acceptor.accept], proxy/src/proxy.rs:113 *)
| LsStopped.                           (** has returned *)

Record svc : Type := Svc { v_cfg : service; v_listen : listen; v_tasks : list task }.

(** proxy/src/proxy.rs:29-37 [ROOT_CERT_STORE]; [Lazy] is poisoned if its function panics. *)
Inductive roots : Type := RtNew | RtReady | RtPoisoned.

(** [w_clients], [w_servers]: the counters of the two [HANDLE_GENERATOR_GENERATOR]s
    (src/client.rs:24-25, src/server.rs:30-31). *)
Record world : Type := World {
  w_svcs : list svc;
  w_roots : roots;
  w_clients : N;
  w_servers : N
}.

(** proxy/src/main.rs:40-46. *)
Definition world_new (cfg : list service) : world :=
  World (map (fun c => Svc c LsBind []) cfg) RtNew hgengen_new hgengen_new.

(** What the operating system, the other ends and the scheduler do. [i]: which service,
    [k]: which of its clients. An action that is impossible changes nothing. *)
Inductive wact : Type :=
| WBind (i : nat) (ok : bool)
| WAccept (i : nat) (ok : bool) (identity_ok : bool)
| WAccepted (i : nat) (r : option (t_st Tc))
| WConnect (i k : nat) (ok : bool) (roots_ok : bool) (name_ok : bool)
| WConnected (i k : nat) (r : option (t_st Ts))
| WTalk (i k : nat) (a : bool * io).

Inductive wlog : Type := WL (i k : nat) (e : plog K).

Fixpoint put {A} (n : nat) (x : A) (l : list A) : list A :=
  match n, l with
  | _, [] => []
  | O, _ :: l' => x :: l'
  | S n', y :: l' => y :: put n' x l'
  end.

Definition put_svc (w : world) (i : nat) (v : svc) : world :=
  World (put i v (w_svcs w)) (w_roots w) (w_clients w) (w_servers w).
Definition put_task (w : world) (i : nat) (v : svc) (k : nat) (t : task) : world :=
  put_svc w i (Svc (v_cfg v) (v_listen v) (put k t (v_tasks v))).

(** proxy/src/main.rs:79-86: [tokio::spawn]. *)
Definition spawn (v : svc) (c : stream Tc) : svc :=
  Svc (v_cfg v) LsAccept (v_tasks v ++ [TkConnect c]).

(** proxy/src/proxy.rs:169-175 and 187-194: the server is connected, and the conversation
    starts with [Client::new]. *)
Definition start (w : world) (i : nat) (v : svc) (k : nat) (c : stream Tc) (s : stream Ts) : world :=
  let '(n, g) := hgengen_generate (w_clients w) in
  let w' := put_task w i v k (TkTalk (proxy_start K Tc Ts c s g)) in
  World (w_svcs w') (w_roots w') n (w_servers w').

(** The proxy has got the greeting, and calls [Server::new]. *)
Definition greeted (p p' : pstate K Tc Ts) : bool :=
  match p, p' with PsGreeting _ _, PsLoop _ _ => true | _, _ => false end.

Definition world_step (w : world) (a : wact) : world * list wlog :=
  match a with
  | WBind i ok =>                      (* proxy/src/main.rs:60-66 *)
      match nth_error (w_svcs w) i with
      | Some (Svc cfg LsBind ts) => (put_svc w i (Svc cfg (if ok then LsAccept else LsStopped) ts), [])
      | _ => (w, [])
      end
  | WAccept i ok identity_ok =>        (* proxy/src/proxy.rs:79-133; on errors main.rs:72-75 *)
      match nth_error (w_svcs w) i with
      | Some (Svc cfg LsAccept ts) =>
          let v := Svc cfg LsAccept ts in
          if ok then
            if binds_tls (sv_bind cfg) then
              if identity_ok then (put_svc w i (Svc cfg LsHandshake ts), []) else (w, [])
            else (put_svc w i (spawn v (stream_insecure Tc)), [])
          else (w, [])
      | _ => (w, [])
      end
  | WAccepted i r =>                   (* proxy/src/proxy.rs:113 *)
      match nth_error (w_svcs w) i with
      | Some (Svc cfg LsHandshake ts) =>
          match r with
          | Some t => (put_svc w i (spawn (Svc cfg LsHandshake ts) (stream_tls Tc t)), [])
          | None => (put_svc w i (Svc cfg LsAccept ts), [])
          end
      | _ => (w, [])
      end
  | WConnect i k ok roots_ok name_ok =>  (* proxy/src/proxy.rs:140-165 *)
      match nth_error (w_svcs w) i with
      | Some v =>
          match nth_error (v_tasks v) k with
          | Some (TkConnect c) =>
              if ok then
                if connects_tls (sv_connect (v_cfg v)) then
                  let rt := match w_roots w with
                            | RtNew => if roots_ok then RtReady else RtPoisoned
                            | r => r
                            end in
                  let t := match rt with
                           | RtReady => if name_ok then TkHandshake c else TkPanicked
                           | _ => TkPanicked
                           end in
                  let w' := put_task w i v k t in
                  (World (w_svcs w') rt (w_clients w') (w_servers w'), [])
                else (start w i v k c (stream_insecure Ts), [])
              else (put_task w i v k TkFailed, [])
          | _ => (w, [])
          end
      | None => (w, [])
      end
  | WConnected i k r =>                (* proxy/src/proxy.rs:162 *)
      match nth_error (w_svcs w) i with
      | Some v =>
          match nth_error (v_tasks v) k with
          | Some (TkHandshake c) =>
              match r with
              | Some t => (start w i v k c (stream_tls Ts t), [])
              | None => (put_task w i v k TkFailed, [])
              end
          | _ => (w, [])
          end
      | None => (w, [])
      end
  | WTalk i k a =>
      match nth_error (w_svcs w) i with
      | Some v =>
          match nth_error (v_tasks v) k with
          | Some (TkTalk p) =>
              let '(n, g) := hgengen_generate (w_servers w) in
              let '(p', l) := pstep K Tc Ts fuel g p a in
              let w' := put_task w i v k (TkTalk p') in
              (World (w_svcs w') (w_roots w') (w_clients w')
                 (if greeted p p' then n else w_servers w'), map (WL i k) l)
          | _ => (w, [])
          end
      | None => (w, [])
      end
  end.

Fixpoint world_run (w : world) (acts : list wact) : world * list wlog :=
  match acts with
  | [] => (w, [])
  | a :: acts' =>
      let '(w1, l1) := world_step w a in
      let '(w2, l2) := world_run w1 acts' in (w2, l1 ++ l2)
  end.

(** proxy/src/main.rs:48-54: the program ends when all services have returned. *)
Definition program_ended (w : world) : Prop := Forall (fun v => v_listen v = LsStopped) (w_svcs w).
End World.

Arguments TkConnect {K Tc Ts} c. Arguments TkHandshake {K Tc Ts} c. Arguments TkTalk {K Tc Ts} p.
Arguments TkFailed {K Tc Ts}. Arguments TkPanicked {K Tc Ts}.
Arguments Svc {K Tc Ts}. Arguments v_cfg {K Tc Ts} s. Arguments v_listen {K Tc Ts} s.
Arguments v_tasks {K Tc Ts} s.
Arguments World {K Tc Ts}. Arguments w_svcs {K Tc Ts} w. Arguments w_roots {K Tc Ts} w.
Arguments w_clients {K Tc Ts} w. Arguments w_servers {K Tc Ts} w.
Arguments WBind {Tc Ts} i ok. Arguments WAccept {Tc Ts} i ok identity_ok.
Arguments WAccepted {Tc Ts} i r. Arguments WConnect {Tc Ts} i k ok roots_ok name_ok.
Arguments WConnected {Tc Ts} i k r. Arguments WTalk {Tc Ts} i k a.
Arguments WL {K} i k e.
Arguments program_ended {K Tc Ts} w.
