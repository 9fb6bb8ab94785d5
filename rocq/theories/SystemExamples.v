(** Concrete runs of a client connected to a server, with the toy codec. They show that the
    hypotheses of the theorems about both can be met, and give the refutations. *)
From Coq Require Import String List NArith Bool Lia.
From Verif Require Import Base Types Codec Handle Receive ServerSend ClientSend Client Server
  SpecFraming SpecClient SpecServer ReceiveProofs ToyCodec ToyLaws ClientExamples ServerExamples
  System SpecSystem SystemLog.
Import ListNotations.
Open Scope list_scope.

(** ** Checking the assumptions *)

Definition is_lineb (x : bytes) : bool :=
  match cut_line x with Some (_, []) => true | _ => false end.

Lemma is_lineb_ok : forall x, is_lineb x = true -> is_line x.
Proof.
  intros x H. unfold is_lineb in H. destruct (cut_line x) as [[a [|]]|] eqn:E; try discriminate.
  assert (P : forall x a r, cut_line x = Some (a, r) -> is_line a).
  { clear. induction x as [|b x IH]; intros a r E; [discriminate|]. cbn in E.
    destruct (is_lf b) eqn:Eb.
    - injection E as <- <-. exists []. split; [|auto]. destruct b; try discriminate. reflexivity.
    - destruct (cut_line x) as [[a' r']|] eqn:E'; [|discriminate]. injection E as <- <-.
      destruct (IH _ _ eq_refl) as (l0 & -> & Hn). exists (b :: l0). split; [reflexivity|].
      intros [->|Hin]; [discriminate|contradiction]. }
  pose proof (P _ _ _ E) as Hl. apply cut_line_app in E. rewrite app_nil_r in E. now subst.
Qed.

Definition good_line (x : bytes) : bool := is_lineb x && ends_crlfb x.

Lemma good_line_ok : forall x, good_line x = true -> is_line x /\ ends_crlf x.
Proof.
  intros x H. unfold good_line in H. apply andb_true_iff in H as [H1 H2].
  split; [now apply is_lineb_ok|now apply ends_crlfb_spec].
Qed.

Lemma one_line : forall {M L} (dec : bytes -> dec_result M L) relaxed acc x m,
  good_line x = true -> dec x = DecOk [] m -> framed dec relaxed acc x [] (OMsg m).
Proof.
  intros M L dec relaxed acc x m H Hd. destruct (good_line_ok x H) as [H1 H2].
  apply scan_end; [exact H1|]. apply v_msg; [|exact Hd]. now right.
Qed.

Lemma with_literal : forall {M L} (dec : bytes -> dec_result M L) relaxed acc x d y i m,
  good_line x = true -> good_line y = true ->
  dec x = DecLit i -> acc i = Some (N.of_nat (length d)) -> dec (x ++ d ++ y) = DecOk [] m ->
  framed dec relaxed acc (x ++ d ++ y) [i] (OMsg m).
Proof.
  intros M L dec relaxed acc x d y i m Hx Hy H1 H2 H3.
  destruct (good_line_ok x Hx) as [X1 X2]. destruct (good_line_ok y Hy) as [Y1 Y2].
  eapply scan_lit with (p := []); eauto.
  - now right.
  - cbn. apply scan_end; [exact Y1|]. apply v_msg; [now right|]. now rewrite <- app_assoc.
Qed.

(** Limits, line by line. *)
Fixpoint lines_fit (o : soptions) (n : N) (fs : list fragment) : Prop :=
  match fs with
  | [] => True
  | FLine x :: fs' =>
      let n' := (n + N.of_nat (length x))%N in
      (n' <= so_max_command_size o)%N /\ lines_fit o n' fs'
  | FLiteral d _ :: fs' =>
      (N.of_nat (length d) <= so_max_literal_size o)%N ->
      lines_fit o (n + N.of_nat (length d))%N fs'
  end.

Lemma frags_bytes_cons : forall f fs, frags_bytes (f :: fs) = frag_data f ++ frags_bytes fs.
Proof. reflexivity. Qed.

Lemma lines_fit_ok : forall o pre fs x post n, lines_fit o n fs ->
  fs = pre ++ FLine x :: post -> lits_fit o pre ->
  (n + N.of_nat (length (frags_bytes (pre ++ [FLine x]))) <= so_max_command_size o)%N.
Proof.
  intros o pre. induction pre as [|f pre IH]; intros fs x post n H E Hl; subst fs.
  - cbn [app] in *. destruct H as [H _]. rewrite frags_bytes_cons, app_length. cbn. lia.
  - pose proof (Forall_inv Hl) as Hf. pose proof (Forall_inv_tail Hl) as Hl'.
    cbn [app]. rewrite frags_bytes_cons, app_length.
    destruct f as [y|d m]; cbn [app lines_fit] in H.
    + destruct H as [_ H]. specialize (IH _ x post _ H eq_refl Hl'). cbn [frag_data]. lia.
    + specialize (IH _ x post _ (H Hf) eq_refl Hl'). cbn [frag_data]. lia.
Qed.

Lemma cmd_fits_ok : forall K o c, lines_fit o 0 (enc_command K c) ->
  (forall d, In (FLiteral d LNonSync) (enc_command K c) ->
     (N.of_nat (length d) <= so_max_literal_size o)%N) -> cmd_fits K o c.
Proof.
  intros K o c H1 H2. split; [exact H2|]. intros pre x post E Hl.
  exact (lines_fit_ok o pre _ x post 0%N H1 E Hl).
Qed.

(** The application of the server, call by call. *)
Fixpoint polite_from (pre l : list slog) : Prop :=
  match l with
  | [] => True
  | e :: l' => polite_entry pre e /\ polite_from (pre ++ [e]) l'
  end.

Lemma polite_from_ok : forall l pre, polite_from pre l ->
  forall l1 e l2, l = l1 ++ e :: l2 -> polite_entry (pre ++ l1) e.
Proof.
  induction l as [|e l IH]; intros pre H l1 e' l2 E; [destruct l1; discriminate|].
  destruct H as [H1 H2]. destruct l1 as [|e1 l1]; injection E as <- E.
  - now rewrite app_nil_r.
  - specialize (IH _ H2 l1 e' l2 E). now rewrite <- app_assoc in IH.
Qed.

(** ** Runs *)

Definition yc (n : nat) : list yact := repeat (YClient CopNext) n.
Definition ys (n : nat) : list yact := repeat (YServer SopNext) n.

(** Literals up to 10 bytes, commands up to 80 bytes. *)
Definition y_opts : soptions := SOptions false 10 80 (B "go on") (B "too long").

Definition ygen_s : hgen := HGen 4 0.
Definition yx_run (o : soptions) (acts : list yact) :=
  sys_run toy (sys_new ex_gen ygen_s false o ex_greeting) acts.
Definition yx_log (o : soptions) (acts : list yact) : list ylog := snd (yx_run o acts).
Definition yx_sys (o : soptions) (acts : list yact) : sys :=
  match fst (yx_run o acts) with
  | Some y => y
  | None => sys_new ex_gen ygen_s false o ex_greeting
  end.

(** A response with a literal made of line ends. *)
Definition ex_fetch : response := RData (DOther (ln "1 FETCH {4}" ++ [CR; LF; LF; CR] ++ B ")")).
(** A command with a literal of 11 bytes. *)
Definition ex_append : command := Command (B "A5") (BOther (ln "APPEND {11}" ++ B "hello world")).

(** A conversation in pieces: LOGIN with two literals, one of them synchronizing; *)
Definition acts_first : list yact :=
  [YClient (CopEnqueueCommand ex_login)] ++ ys 2 ++
  [YToClient 5] ++ yc 1 ++ [YToClient 100] ++ yc 3 ++
  [YToServer 3] ++ ys 2 ++ [YToServer 100] ++ ys 3 ++ [YToClient 100] ++ yc 3 ++
  [YToServer 100] ++ ys 2.
(** then APPEND, whose literal is rejected; AUTHENTICATE; IDLE. *)
Definition acts_talk : list yact :=
  acts_first ++
  [YClient (CopEnqueueCommand ex_append); YClient (CopEnqueueCommand ex_auth);
   YClient (CopEnqueueCommand ex_idle)] ++ yc 1 ++ [YToServer 100] ++ ys 1 ++
  [YServer (SopEnqueue ex_fetch); YServer (SopEnqueue (ex_ok "A2"))] ++
  ys 7 ++ [YToClient 30] ++ yc 3 ++ [YToClient 100] ++ yc 5 ++
  [YToServer 100] ++ ys 2 ++
  [YServer (SopAuthenticateContinue (CcrBasic None (B "data?")))] ++ ys 4 ++ [YToClient 100] ++ yc 3 ++
  [YClient (CopSetAuthenticateData (ADContinue (B "secret")))] ++ yc 2 ++ [YToServer 100] ++ ys 2 ++
  [YServer (SopAuthenticateFinish (StTagged (B "A3") (StatusBody SkOk None (B "in"))))] ++ ys 4 ++
  [YToClient 100] ++ yc 5 ++ [YToServer 100] ++ ys 2 ++
  [YServer (SopIdleAccept (CcrBasic None (B "idling")))] ++ ys 4 ++ [YToClient 100] ++ yc 3.

(** After it, "DONE". *)
Definition acts_done : list yact :=
  acts_talk ++ [YClient CopSetIdleDone] ++ yc 3 ++ [YToServer 100] ++ ys 2 ++
  [YServer (SopEnqueue (ex_ok "A4"))] ++ ys 4 ++ [YToClient 100] ++ yc 3.

Ltac one_line := exists []; apply one_line; vm_compute; reflexivity.

Lemma talk_msgs : Forall (msg_roundtrips toy false)
  (scheduled y_opts ex_greeting (slogs (yx_log y_opts acts_done))).
Proof.
  remember (scheduled y_opts ex_greeting (slogs (yx_log y_opts acts_done))) as ms eqn:E.
  vm_compute in E. subst ms.
  repeat apply Forall_cons; try apply Forall_nil; cbn [msg_roundtrips]; try one_line.
  exists [4%N].
  apply (with_literal (dec_response toy) false accept_any
    (ln "* 1 FETCH {4}") [CR; LF; LF; CR] (ln ")")); vm_compute; reflexivity.
Qed.

Ltac good_line := apply good_line_ok; vm_compute; reflexivity.

Lemma talk_cmds : Forall (fun x => cmd_roundtrips toy (snd x) /\ cmd_fits toy y_opts (snd x))
  (enqueued (clogs (yx_log y_opts acts_done))).
Proof.
  assert (E : enqueued (clogs (yx_log y_opts acts_done)) =
    [(hd_ 0, ex_login); (hd_ 1, ex_append); (hd_ 2, ex_auth); (hd_ 3, ex_idle)]) by (vm_compute; reflexivity).
  rewrite E. clear E.
  repeat apply Forall_cons; try apply Forall_nil; cbn [snd]; (split; [|apply cmd_fits_ok]).
  - apply (eo_lit _ _ [] (ln "A2 LOGIN {5}") (B "alice") LSync); try good_line; [reflexivity|].
    apply (eo_lit _ _ _ (ln " {3+}") (B "bob") LNonSync); try good_line; [vm_compute; reflexivity|].
    apply eo_end; try good_line. vm_compute. reflexivity.
  - cbn. unfold N.le. cbn. repeat (intros _ || (split; [discriminate|])). exact I.
  - cbn. intros d [H|[H|[H|[H|[H|[]]]]]]; try discriminate. injection H as <-. unfold N.le. cbn. discriminate.
  - apply (eo_lit _ _ [] (ln "A5 APPEND {11}") (B "hello world") LSync); try good_line; [reflexivity|].
    apply eo_end; try good_line. vm_compute. reflexivity.
  - cbn. unfold N.le. cbn. split; [discriminate|]. intro H. exfalso. now apply H.
  - cbn. intros d [H|[H|[H|[]]]]; discriminate.
  - apply eo_end; try good_line. vm_compute. reflexivity.
  - cbn. unfold N.le. cbn. split; [discriminate|exact I].
  - cbn. intros d [H|[]]; discriminate.
  - apply eo_end; try good_line. vm_compute. reflexivity.
  - cbn. unfold N.le. cbn. split; [discriminate|exact I].
  - cbn. intros d [H|[]]; discriminate.
Qed.

Lemma talk_polite : polite (slogs (yx_log y_opts acts_done)).
Proof.
  intros l1 e l2 E. apply (polite_from_ok (slogs (yx_log y_opts acts_done)) []) with (l2 := l2); [|exact E].
  clear E. remember (slogs (yx_log y_opts acts_done)) as ls eqn:E. vm_compute in E. subst ls.
  cbn [polite_from app].
  repeat match goal with
  | |- _ /\ _ => split
  | |- True => exact I
  | |- _ => first [exact I | vm_compute; reflexivity | vm_compute; left; reflexivity
      | vm_compute; right; left; reflexivity
      | vm_compute; eauto 8]
  end.
Qed.

Lemma talk_orderly : orderly toy false y_opts ex_greeting (yx_log y_opts acts_done).
Proof.
  constructor.
  - intros m Hm. pose proof talk_msgs as H. rewrite Forall_forall in H. now apply H.
  - intros h c Hc. pose proof talk_cmds as H. rewrite Forall_forall in H. exact (H _ Hc).
  - intros d h Hd.
    assert (E : d = ADContinue (B "secret")).
    { remember (clogs (yx_log y_opts acts_done)) as lc eqn:E. vm_compute in E. subst lc.
      repeat (destruct Hd as [Hd|Hd]; [try discriminate; now injection Hd as <- _|]). contradiction. }
    subst d. split.
    + exists (ln "secret"). split; [reflexivity|]. split; [good_line|]. split; [good_line|]. reflexivity.
    + unfold line_fits. cbn. unfold N.le. cbn. discriminate.
  - intros h _. split.
    + exists (ln "DONE"). split; [reflexivity|]. split; [good_line|]. split; [good_line|]. reflexivity.
    + unfold line_fits. cbn. unfold N.le. cbn. discriminate.
  - reflexivity.
  - assert (E : map (fun x => ctag (snd x)) (enqueued (clogs (yx_log y_opts acts_done))) =
      [B "A2"; B "A5"; B "A3"; B "A4"]) by (vm_compute; reflexivity).
    rewrite E. repeat constructor; cbn; intuition discriminate.
  - exact talk_polite.
Qed.

Lemma first_orderly : orderly toy false y_opts ex_greeting (yx_log y_opts acts_first).
Proof.
  apply (orderly_app _ _ _ _ _
    (skipn (List.length (yx_log y_opts acts_first)) (yx_log y_opts acts_done))).
  replace (_ ++ _) with (yx_log y_opts acts_done); [exact talk_orderly|]. vm_compute. reflexivity.
Qed.

Lemma talk_prefix_orderly : orderly toy false y_opts ex_greeting (yx_log y_opts acts_talk).
Proof.
  apply (orderly_app _ _ _ _ _
    (skipn (List.length (yx_log y_opts acts_talk)) (yx_log y_opts acts_done))).
  replace (_ ++ _) with (yx_log y_opts acts_done); [exact talk_orderly|]. vm_compute. reflexivity.
Qed.
