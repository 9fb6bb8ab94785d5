(** Properties of the server's options (C62). Model: Options.v. *)
From Coq Require Import List NArith Bool PeanoNat Lia.
From Coq Require String.
Import (notations) String.
From Verif Require Import Base Types Codec Handle Receive ServerSend ClientSend Client Server
  SpecFraming SpecClient SpecServer System SpecSystem ToyCodec ClientExamples ServerExamples
  SystemExamples SystemRefute Options OptionsProofs ProxyUtil Proxy.
Import ListNotations.
Open Scope list_scope.
Open Scope nat_scope.

(** Whatever other crates do with the options, no call panics, both texts are valid, and the
    getters return them. [valid]: what imap-types accepts as the text of a continuation request;
    it has to accept "...". *)
Theorem C62_texts : forall valid ps, valid dots = true ->
  exists d o a r, options_default valid = Val d /\ options_run valid d ps = Val o /\
    server_options o = Val (SOptions (op_crlf_relaxed o) (op_max_literal_size o) (op_max_command_size o) a r) /\
    literal_accept_text o = Val a /\ literal_reject_text o = Val r /\
    valid a = true /\ valid r = true.
Proof. exact options_reached. Qed.
Print Assumptions C62_texts.

(** The server gets the values that were set last (of the texts: of the valid ones). *)
Theorem C62_values : forall valid ps, valid dots = true ->
  exists d o, options_default valid = Val d /\ options_run valid d ps = Val o /\
    server_options o = Val {|
      so_crlf_relaxed := last (flat_map (fun p => match p with OopRelaxed b => [b] | _ => [] end) ps) false;
      so_max_literal_size := last (flat_map (fun p => match p with OopMaxLiteral n => [n] | _ => [] end) ps) 26214400%N;
      so_max_command_size := last (flat_map (fun p => match p with OopMaxCommand n => [n] | _ => [] end) ps) 26279936%N;
      so_accept_text := last (flat_map (fun p => match p with OopAccept x => if valid x then [x] else [] | _ => [] end) ps) (B "...");
      so_reject_text := last (flat_map (fun p => match p with OopReject x => if valid x then [x] else [] | _ => [] end) ps) (B "...") |}.
Proof. exact options_values. Qed.
Print Assumptions C62_values.

(** A setter sets exactly its text if it is valid; otherwise it returns the text and changes
    nothing. *)
Theorem C62_setters : forall valid o text,
  (exists o' e, set_literal_accept_text valid o text = Val (o', e) /\
    (valid text = true -> e = None /\ literal_accept_text o' = Val text /\
       literal_reject_text o' = literal_reject_text o /\ op_crlf_relaxed o' = op_crlf_relaxed o /\
       op_max_literal_size o' = op_max_literal_size o /\ op_max_command_size o' = op_max_command_size o) /\
    (valid text = false -> e = Some text /\ o' = o)) /\
  (exists o' e, set_literal_reject_text valid o text = Val (o', e) /\
    (valid text = true -> e = None /\ literal_reject_text o' = Val text /\
       literal_accept_text o' = literal_accept_text o /\ op_crlf_relaxed o' = op_crlf_relaxed o /\
       op_max_literal_size o' = op_max_literal_size o /\ op_max_command_size o' = op_max_command_size o) /\
    (valid text = false -> e = Some text /\ o' = o)).
Proof. intros valid o text. exact (conj (accept_set valid o text) (reject_set valid o text)). Qed.
Print Assumptions C62_setters.

(** So the server never panics when it answers a literal, and it answers as in Server.v.
    [bad_ok]: what imap-types accepts as the text of a status without code. *)
Theorem C62_responses : forall valid bad_ok ps t, valid dots = true ->
  (forall x, valid x = true -> bad_ok x = true) ->
  exists d o so, options_default valid = Val d /\ options_run valid d ps = Val o /\
    server_options o = Val so /\
    accept_response valid o = Val (RCcr (literal_accept_ccr so)) /\
    reject_response bad_ok o t = Val (RStatus (literal_reject_status so t)).
Proof. exact internal_responses. Qed.
Print Assumptions C62_responses.

(** [Options::default] is [soptions_default], and the options of the proxy
    (proxy/src/proxy.rs:209-217) are [proxy_soptions]: it does not panic if imap-types accepts
    its two texts. *)
Theorem C62_proxy : forall valid, valid dots = true ->
  exists d, options_default valid = Val d /\ server_options d = Val soptions_default /\
  (valid LITERAL_ACCEPT_TEXT = true -> valid LITERAL_REJECT_TEXT = true ->
   exists o1 o2, set_literal_accept_text valid d LITERAL_ACCEPT_TEXT = Val (o1, None) /\
     set_literal_reject_text valid o1 LITERAL_REJECT_TEXT = Val (o2, None) /\
     server_options o2 = Val proxy_soptions).
Proof.
  intros valid H. destruct (default_sound valid H) as (d & E & _ & S). exists d.
  split; [exact E|]. split; [exact S|]. intros V1 V2.
  unfold options_default, ccr_basic in E. rewrite H in E. cbn in E. injection E as <-.
  unfold set_literal_accept_text, set_literal_reject_text, ccr_basic. rewrite V1, V2. cbn [unwrap bind].
  do 2 eexists. split; [reflexivity|]. split; reflexivity.
Qed.
Print Assumptions C62_proxy.

(** Not empty, no response code, and not Base64. *)
Definition plain_text (x : bytes) : bool :=
  match x with
  | [] => false
  | b :: _ => negb (Byte.eqb b x5b) && existsb (fun b => Byte.eqb b x20 || Byte.eqb b x2e) x
  end.
Example C62_texts_example :
  plain_text dots = true /\ plain_text LITERAL_ACCEPT_TEXT = true /\ plain_text LITERAL_REJECT_TEXT = true /\
  options_run plain_text (Options false 5 6 (CcrBasic None dots) (CcrBasic None dots))
    [OopAccept (B "go on"); OopReject (B "[ALERT] no"); OopMaxLiteral 10] =
  Val (Options false 10 6 (CcrBasic None (B "go on")) (CcrBasic None dots)) /\
  set_literal_reject_text plain_text (Options false 5 6 (CcrBasic None dots) (CcrBasic None dots)) (B "Zm9v") =
    Val (Options false 5 6 (CcrBasic None dots) (CcrBasic None dots), Some (B "Zm9v")).
Proof. vm_compute. auto 10. Qed.

(** Commands with few literals never exceed the limit for commands: with [n] literals, if [n]
    literals of the maximum size and the lines do not. *)
Theorem C62_fits : forall K o c,
  (forall d, In (FLiteral d LNonSync) (enc_command K c) ->
     (N.of_nat (length d) <= so_max_literal_size o)%N) ->
  (n_literals (enc_command K c) * so_max_literal_size o + n_line_bytes (enc_command K c)
     <= so_max_command_size o)%N ->
  cmd_fits K o c.
Proof. exact few_literals_fit. Qed.
Print Assumptions C62_fits.

(** With the default options, and for the proxy: one literal, and 64 KiB of lines. *)
Theorem C62_default : forall K c,
  (forall d, In (FLiteral d LNonSync) (enc_command K c) -> (N.of_nat (length d) <= 26214400)%N) ->
  (n_literals (enc_command K c) <= 1)%N -> (n_line_bytes (enc_command K c) <= 65536)%N ->
  cmd_fits K soptions_default c /\ cmd_fits K proxy_soptions c.
Proof.
  intros K c H1 H2 H3.
  assert (B : (n_literals (enc_command K c) * 26214400 + n_line_bytes (enc_command K c) <= 26279936)%N) by nia.
  split; apply few_literals_fit; assumption.
Qed.
Print Assumptions C62_default.

Example C62_default_example : let fs := enc_command toy (Command (B "A5") (BOther (ln "APPEND {11}" ++ B "hello world"))) in
  fs = [FLine (ln "A5 APPEND {11}"); FLiteral (B "hello world") LSync; FLine [CR; LF]] /\
  n_literals fs = 1%N /\ n_line_bytes fs = 18%N.
Proof. vm_compute. auto. Qed.

(** What the documentation demands, [max_literal_size < max_command_size] (src/server.rs:42), is
    not enforced, and it is not sufficient: the server gives permission to send a literal, and
    then takes a part of it for a command. *)
Theorem C62_documented_refuted : let o := y_small in let l := yx_log o (acts_cross "19") in
  (so_max_literal_size o < so_max_command_size o)%N /\
  ran_ok o (acts_cross "19") /\ msgs_ok o l /\ cmds_ok l /\ tags_ok l /\ polite (slogs l) /\
  foreign l (cmd "9" "LOGOUT").
Proof. split; [vm_compute; reflexivity|exact cross_sync_facts]. Qed.
Print Assumptions C62_documented_refuted.
