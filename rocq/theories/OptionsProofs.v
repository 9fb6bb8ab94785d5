(** Proofs about the server's options (Options.v). *)
From Coq Require Import List NArith Bool Lia.
From Verif Require Import Base Types Codec Handle Receive ServerSend Server SpecSystem Options.
Import ListNotations.

Section Valid.
Context (valid : bytes -> bool).

(** Both continuation requests are as the setters leave them. *)
Definition sound (o : options) : Prop :=
  exists a r, op_accept_ccr o = CcrBasic None a /\ valid a = true /\
    op_reject_ccr o = CcrBasic None r /\ valid r = true.

Lemma default_sound : valid dots = true ->
  exists o, options_default valid = Val o /\ sound o /\ server_options o = Val soptions_default.
Proof.
  intro H. unfold options_default, ccr_basic. rewrite H. cbn [unwrap bind]. eexists.
  split; [reflexivity|]. split; [|reflexivity].
  exists dots, dots. cbn. auto.
Qed.

Lemma step_sound : forall o p, sound o -> exists o', options_step valid o p = Val o' /\ sound o'.
Proof.
  intros o p (a & r & Ha & Va & Hr & Vr).
  destruct p as [b|n|n|text|text]; cbn [options_step].
  1-3: eexists; split; [reflexivity|]; exists a, r; cbn; auto.
  - unfold set_literal_accept_text, ccr_basic. destruct (valid text) eqn:E; cbn [unwrap bind fst].
    + eexists. split; [reflexivity|]. exists text, r. cbn. auto.
    + eexists. split; [reflexivity|]. exists a, r. auto.
  - unfold set_literal_reject_text, ccr_basic. destruct (valid text) eqn:E; cbn [unwrap bind fst].
    + eexists. split; [reflexivity|]. exists a, text. cbn. auto.
    + eexists. split; [reflexivity|]. exists a, r. auto.
Qed.

Lemma run_sound : forall ps o, sound o -> exists o', options_run valid o ps = Val o' /\ sound o'.
Proof.
  induction ps as [|p ps IH]; intros o S; cbn [options_run].
  - eauto.
  - destruct (step_sound o p S) as (o1 & -> & S1). cbn [bind]. auto.
Qed.

Lemma options_reached : forall ps, valid dots = true ->
  exists d o a r, options_default valid = Val d /\ options_run valid d ps = Val o /\
    server_options o = Val (SOptions (op_crlf_relaxed o) (op_max_literal_size o) (op_max_command_size o) a r) /\
    literal_accept_text o = Val a /\ literal_reject_text o = Val r /\
    valid a = true /\ valid r = true.
Proof.
  intros ps H. destruct (default_sound H) as (d & Ed & Sd & _).
  destruct (run_sound ps d Sd) as (o & Eo & a & r & Ha & Va & Hr & Vr).
  exists d, o, a, r. unfold server_options, literal_accept_text, literal_reject_text.
  rewrite Ha, Hr. cbn. auto 10.
Qed.

Definition setting (p : oop) (o : soptions) : soptions :=
  match p with
  | OopRelaxed b => SOptions b (so_max_literal_size o) (so_max_command_size o) (so_accept_text o) (so_reject_text o)
  | OopMaxLiteral n => SOptions (so_crlf_relaxed o) n (so_max_command_size o) (so_accept_text o) (so_reject_text o)
  | OopMaxCommand n => SOptions (so_crlf_relaxed o) (so_max_literal_size o) n (so_accept_text o) (so_reject_text o)
  | OopAccept x => if valid x
      then SOptions (so_crlf_relaxed o) (so_max_literal_size o) (so_max_command_size o) x (so_reject_text o) else o
  | OopReject x => if valid x
      then SOptions (so_crlf_relaxed o) (so_max_literal_size o) (so_max_command_size o) (so_accept_text o) x else o
  end.

Lemma step_setting : forall o so p, server_options o = Val so ->
  exists o', options_step valid o p = Val o' /\ server_options o' = Val (setting p so).
Proof.
  intros o so p H. unfold server_options, literal_accept_text, literal_reject_text in H.
  destruct o as [b n m [q a|?] [q' r|?]]; cbn in H; try discriminate. injection H as <-.
  destruct p as [b'|n'|m'|x|x]; cbn [options_step]; try (eexists; split; reflexivity).
  - unfold set_literal_accept_text, ccr_basic. cbn [setting]. destruct (valid x); eexists; split; reflexivity.
  - unfold set_literal_reject_text, ccr_basic. cbn [setting]. destruct (valid x); eexists; split; reflexivity.
Qed.

Definition last_of {A} (f : oop -> list A) (ps : list oop) (first : A) : A := last (flat_map f ps) first.

Lemma last_app_ {A} : forall (x y : list A) d, last (x ++ y) d = last y (last x d).
Proof.
  intros x y d. destruct y as [|b y] using rev_ind; [now rewrite app_nil_r|].
  rewrite app_assoc, !last_last. reflexivity.
Qed.

Lemma last_of_cons {A} : forall (f : oop -> list A) p ps d, last_of f (p :: ps) d = last_of f ps (last (f p) d).
Proof. intros. unfold last_of. cbn [flat_map]. apply last_app_. Qed.

Lemma run_setting : forall ps o so, server_options o = Val so ->
  exists o', options_run valid o ps = Val o' /\ server_options o' = Val {|
    so_crlf_relaxed := last_of (fun p => match p with OopRelaxed b => [b] | _ => [] end) ps (so_crlf_relaxed so);
    so_max_literal_size := last_of (fun p => match p with OopMaxLiteral n => [n] | _ => [] end) ps (so_max_literal_size so);
    so_max_command_size := last_of (fun p => match p with OopMaxCommand n => [n] | _ => [] end) ps (so_max_command_size so);
    so_accept_text := last_of (fun p => match p with OopAccept x => if valid x then [x] else [] | _ => [] end) ps (so_accept_text so);
    so_reject_text := last_of (fun p => match p with OopReject x => if valid x then [x] else [] | _ => [] end) ps (so_reject_text so) |}.
Proof.
  induction ps as [|p ps IH]; intros o so H.
  - exists o. split; [reflexivity|]. rewrite H. now destruct so.
  - destruct (step_setting o so p H) as (o1 & E1 & H1). destruct (IH o1 _ H1) as (o2 & E2 & H2).
    exists o2. cbn [options_run]. rewrite E1. split; [exact E2|]. rewrite H2, !last_of_cons.
    destruct p; cbn [setting last]; try reflexivity; destruct (valid _); reflexivity.
Qed.

Lemma options_values : forall ps, valid dots = true ->
  exists d o, options_default valid = Val d /\ options_run valid d ps = Val o /\
    server_options o = Val {|
      so_crlf_relaxed := last (flat_map (fun p => match p with OopRelaxed b => [b] | _ => [] end) ps) false;
      so_max_literal_size := last (flat_map (fun p => match p with OopMaxLiteral n => [n] | _ => [] end) ps) 26214400%N;
      so_max_command_size := last (flat_map (fun p => match p with OopMaxCommand n => [n] | _ => [] end) ps) 26279936%N;
      so_accept_text := last (flat_map (fun p => match p with OopAccept x => if valid x then [x] else [] | _ => [] end) ps) dots;
      so_reject_text := last (flat_map (fun p => match p with OopReject x => if valid x then [x] else [] | _ => [] end) ps) dots |}.
Proof.
  intros ps H. destruct (default_sound H) as (d & Ed & _ & Sd).
  destruct (run_setting ps d _ Sd) as (o & Eo & So). exists d, o. split; [exact Ed|]. split; [exact Eo|exact So].
Qed.

Lemma accept_set : forall o text, exists o' e, set_literal_accept_text valid o text = Val (o', e) /\
  (valid text = true -> e = None /\ literal_accept_text o' = Val text /\
     literal_reject_text o' = literal_reject_text o /\ op_crlf_relaxed o' = op_crlf_relaxed o /\
     op_max_literal_size o' = op_max_literal_size o /\ op_max_command_size o' = op_max_command_size o) /\
  (valid text = false -> e = Some text /\ o' = o).
Proof.
  intros o text. unfold set_literal_accept_text, ccr_basic. destruct (valid text) eqn:E; cbn [unwrap bind];
    do 2 eexists; split; [reflexivity| |reflexivity|]; (split; intro X; [try discriminate|try discriminate]);
    auto 10.
Qed.

Lemma reject_set : forall o text, exists o' e, set_literal_reject_text valid o text = Val (o', e) /\
  (valid text = true -> e = None /\ literal_reject_text o' = Val text /\
     literal_accept_text o' = literal_accept_text o /\ op_crlf_relaxed o' = op_crlf_relaxed o /\
     op_max_literal_size o' = op_max_literal_size o /\ op_max_command_size o' = op_max_command_size o) /\
  (valid text = false -> e = Some text /\ o' = o).
Proof.
  intros o text. unfold set_literal_reject_text, ccr_basic. destruct (valid text) eqn:E; cbn [unwrap bind];
    do 2 eexists; split; [reflexivity| |reflexivity|]; (split; intro X; [try discriminate|try discriminate]);
    auto 10.
Qed.

Lemma internal_responses : forall bad_ok ps t, valid dots = true ->
  (forall x, valid x = true -> bad_ok x = true) ->
  exists d o so, options_default valid = Val d /\ options_run valid d ps = Val o /\
    server_options o = Val so /\
    accept_response valid o = Val (RCcr (literal_accept_ccr so)) /\
    reject_response bad_ok o t = Val (RStatus (literal_reject_status so t)).
Proof.
  intros bad_ok ps t H B. destruct (options_reached ps H) as (d & o & a & r & Ed & Eo & Es & Ea & Er & Va & Vr).
  exists d, o. eexists. split; [exact Ed|]. split; [exact Eo|]. split; [exact Es|].
  unfold accept_response, reject_response. rewrite Ea, Er. cbn [bind].
  unfold ccr_basic. rewrite Va, (B r Vr). auto.
Qed.
End Valid.

(** ** Which commands fit *)

(** Number of literals, and bytes of lines. *)
Definition n_literals (fs : list fragment) : N :=
  N.of_nat (length (filter (fun f => match f with FLiteral _ _ => true | FLine _ => false end) fs)).
Definition n_line_bytes (fs : list fragment) : N :=
  N.of_nat (length (flat_map (fun f => match f with FLine x => x | FLiteral _ _ => [] end) fs)).

Lemma size_bound : forall o fs, lits_fit o fs ->
  (N.of_nat (length (frags_bytes fs)) <= n_literals fs * so_max_literal_size o + n_line_bytes fs)%N.
Proof.
  intros o fs. induction 1 as [|f fs F _ IH].
  - vm_compute. discriminate.
  - unfold n_literals, n_line_bytes, frags_bytes in *. cbn [flat_map map concat].
    destruct f as [x|d m]; cbn [filter flat_map frag_data length app] in *; rewrite ?app_length in *; cbn in F; lia.
Qed.

Lemma n_literals_app : forall a b, n_literals (a ++ b) = (n_literals a + n_literals b)%N.
Proof. intros. unfold n_literals. rewrite filter_app, app_length. lia. Qed.
Lemma n_line_bytes_app : forall a b, n_line_bytes (a ++ b) = (n_line_bytes a + n_line_bytes b)%N.
Proof. intros. unfold n_line_bytes. rewrite flat_map_app, app_length. lia. Qed.

Lemma few_literals_fit : forall K o c,
  (forall d, In (FLiteral d LNonSync) (enc_command K c) ->
     (N.of_nat (length d) <= so_max_literal_size o)%N) ->
  (n_literals (enc_command K c) * so_max_literal_size o + n_line_bytes (enc_command K c)
     <= so_max_command_size o)%N ->
  cmd_fits K o c.
Proof.
  intros K o c H1 H2. split; [exact H1|]. intros pre x post E Hl.
  assert (Hf : lits_fit o (pre ++ [FLine x])).
  { unfold lits_fit. apply Forall_app. split; [exact Hl|]. repeat constructor. }
  pose proof (size_bound o _ Hf) as B.
  assert (E' : enc_command K c = (pre ++ [FLine x]) ++ post) by (rewrite <- app_assoc; exact E).
  rewrite E', n_literals_app, n_line_bytes_app in H2. nia.
Qed.
