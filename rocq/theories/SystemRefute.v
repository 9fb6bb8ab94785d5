(** Runs of a client connected to a server in which one assumption is violated. *)
From Coq Require Import String List NArith Bool Lia.
From Verif Require Import Base Types Codec Handle Receive ServerSend ClientSend Client Server
  SpecFraming SpecClient SpecServer ReceiveProofs ToyCodec ToyLaws ClientExamples ServerExamples
  System SpecSystem SystemLog SystemExamples.
Import ListNotations.
Open Scope list_scope.

(** Greeting. *)
Definition acts_hello : list yact := ys 2 ++ [YToClient 100] ++ yc 1.

(** A literal that is sent without asking, and exceeds the limit of the server. *)
Definition ex_smuggle : command :=
  Command (B "A1") (BOther (ln "APPEND {11+}" ++ ln "A9 LOGOUT")).
Definition acts_smuggle : list yact :=
  acts_hello ++ [YClient (CopEnqueueCommand ex_smuggle)] ++ yc 2 ++ [YToServer 100] ++ ys 3.

(** A literal that does not exceed the limit for literals, but the command exceeds the limit
    for commands. The limits are as documented (src/server.rs:42): the former is smaller. *)
Definition y_small : soptions := SOptions false 19 20 (B "go on") (B "too long").
Definition ex_cross (m : string) : command :=
  Command (B "A1") (BOther (B "X {" ++ B m ++ ln "}" ++ B "12345678" ++ ln "A9 LOGOUT")).
Arguments ex_cross m%string_scope.
Definition acts_cross (m : string) : list yact :=
  acts_hello ++ [YClient (CopEnqueueCommand (ex_cross m))] ++ yc 2 ++ [YToServer 100] ++ ys 3 ++
  [YToClient 100] ++ yc 2 ++ [YToServer 100] ++ ys 4.
Arguments acts_cross m%string_scope.

(** The line that announces a synchronizing literal exceeds the limit for commands. *)
Definition y_tiny : soptions := SOptions false 9 10 (B "go on") (B "too long").
Definition ex_hang : command := Command (B "A1") (BOther (ln "APPEND {5}" ++ B "hello")).
Definition acts_hang : list yact :=
  acts_hello ++ [YClient (CopEnqueueCommand ex_hang)] ++ yc 2 ++ [YToServer 100] ++ ys 4 ++
  [YToClient 100] ++ yc 1.

(** Two commands with the same tag: "BAD" for the first is taken for a rejection of the
    literal of the second. *)
Definition acts_tags : list yact :=
  acts_hello ++
  [YClient (CopEnqueueCommand (cmd "A1" "NOOP")); YClient (CopEnqueueCommand ex_hang);
   YClient (CopEnqueueCommand (cmd "A2" "NOOP"))] ++ yc 4 ++ [YToServer 100] ++ ys 1 ++
  [YServer (SopEnqueue (RStatus (StTagged (B "A1") (StatusBody SkBad None (B "no")))))] ++ ys 4 ++
  [YToClient 100] ++ yc 4 ++ [YToServer 100] ++ ys 4.

(** A status for a command that was not received. *)
Definition acts_early : list yact :=
  acts_hello ++
  [YClient (CopEnqueueCommand ex_hang); YClient (CopEnqueueCommand (cmd "A2" "NOOP"))] ++ yc 2 ++
  [YServer (SopEnqueue (RStatus (StTagged (B "A1") (StatusBody SkBad None (B "no")))))] ++ ys 4 ++
  [YToServer 100] ++ ys 4 ++ [YToClient 100] ++ yc 4 ++ [YToServer 100] ++ ys 4.

(** A continuation request that nothing calls for. *)
Definition ex_bait : command := Command (B "A1") (BOther (ln "APPEND {11}" ++ ln "A9 LOGOUT")).
Definition acts_bait : list yact :=
  acts_hello ++ [YClient (CopEnqueueCommand ex_bait)] ++ yc 2 ++
  [YServer (SopEnqueue (RCcr (CcrBasic None (B "idle"))))] ++ ys 2 ++
  [YToClient 100] ++ yc 3 ++ [YToServer 100] ++ ys 6.

(** After it, everything is delivered. *)
Definition acts_bait_end : list yact := acts_bait ++ [YToClient 100] ++ yc 3 ++ [YToServer 100] ++ ys 4 ++
  [YToClient 100] ++ yc 3.

(** The other assumptions hold. *)
Definition msgs_ok (o : soptions) (l : list ylog) : Prop :=
  forall m, In m (scheduled o ex_greeting (slogs l)) -> msg_roundtrips toy false m.
Definition cmds_ok (l : list ylog) : Prop :=
  forall h c, In (h, c) (enqueued (clogs l)) -> cmd_roundtrips toy c.
Definition fits_ok (o : soptions) (l : list ylog) : Prop :=
  forall h c, In (h, c) (enqueued (clogs l)) -> cmd_fits toy o c.
Definition tags_ok (l : list ylog) : Prop :=
  NoDup (map (fun x => ctag (snd x)) (enqueued (clogs l))).

Ltac check_msgs o l :=
  let ms := fresh "ms" in let E := fresh "E" in
  assert (H : Forall (msg_roundtrips toy false) (scheduled o ex_greeting (slogs l)));
  [ remember (scheduled o ex_greeting (slogs l)) as ms eqn:E; vm_compute in E; subst ms;
    repeat apply Forall_cons; try apply Forall_nil; cbn [msg_roundtrips]; one_line
  | let m := fresh "m" in let Hm := fresh "Hm" in
    intros m Hm; rewrite Forall_forall in H; now apply H ].

Ltac check_polite l :=
  let l1 := fresh "l1" in let e := fresh "e" in let l2 := fresh "l2" in let E := fresh "E" in
  let ls := fresh "ls" in
  intros l1 e l2 E; apply (polite_from_ok (slogs l) []) with (l2 := l2); [|exact E];
  clear E; remember (slogs l) as ls eqn:E; vm_compute in E; subst ls; cbn [polite_from app];
  repeat match goal with
  | |- _ /\ _ => split
  | |- True => exact I
  | |- _ => first [exact I | vm_compute; reflexivity | vm_compute; left; reflexivity]
  end.

Ltac check_tags l :=
  let ts := fresh "ts" in let E := fresh "E" in
  unfold tags_ok; remember (map (fun x => ctag (snd x)) (enqueued (clogs l))) as ts eqn:E;
  vm_compute in E; subst ts; repeat constructor; cbn; intuition discriminate.

Lemma enc_smuggle : cmd_roundtrips toy ex_smuggle.
Proof.
  apply (eo_lit _ _ [] (ln "A1 APPEND {11+}") (ln "A9 LOGOUT") LNonSync); try good_line; [reflexivity|].
  apply eo_end; try good_line. vm_compute. reflexivity.
Qed.
Lemma enc_bait : cmd_roundtrips toy ex_bait.
Proof.
  apply (eo_lit _ _ [] (ln "A1 APPEND {11}") (ln "A9 LOGOUT") LSync); try good_line; [reflexivity|].
  apply eo_end; try good_line. vm_compute. reflexivity.
Qed.
Lemma enc_hang : cmd_roundtrips toy ex_hang.
Proof.
  apply (eo_lit _ _ [] (ln "A1 APPEND {5}") (B "hello") LSync); try good_line; [reflexivity|].
  apply eo_end; try good_line. vm_compute. reflexivity.
Qed.
Lemma enc_cross_sync : cmd_roundtrips toy (ex_cross "19").
Proof.
  apply (eo_lit _ _ [] (ln "A1 X {19}") (B "12345678" ++ ln "A9 LOGOUT") LSync); try good_line; [reflexivity|].
  apply eo_end; try good_line. vm_compute. reflexivity.
Qed.
Lemma enc_cross_non_sync : cmd_roundtrips toy (ex_cross "19+").
Proof.
  apply (eo_lit _ _ [] (ln "A1 X {19+}") (B "12345678" ++ ln "A9 LOGOUT") LNonSync); try good_line; [reflexivity|].
  apply eo_end; try good_line. vm_compute. reflexivity.
Qed.
Lemma enc_noop : forall t, t = "A1"%string \/ t = "A2"%string -> cmd_roundtrips toy (cmd t "NOOP").
Proof.
  intros t [->| ->]; (apply eo_end; [good_line|good_line|]; vm_compute; reflexivity).
Qed.

(** Not a command of the client, but reported by the server. *)
Definition foreign (l : list ylog) (c : command) : Prop :=
  In (IEvent (command_event c)) (sreports (slogs l)) /\ forall h, ~ In (h, c) (enqueued (clogs l)).

Ltac foreign :=
  split; [vm_compute; repeat first [left; reflexivity | right]|
    let h := fresh "h" in let H := fresh "H" in
    intros h H; vm_compute in H; repeat (destruct H as [H|H]; [discriminate H|]); exact H].

Ltac cmds_tac t :=
  let h := fresh "h" in let c := fresh "c" in let H := fresh "H" in
  intros h c H; vm_compute in H;
  repeat (destruct H as [H|H]; [injection H as <- <-; t|]); contradiction.

Lemma fits_hang : cmd_fits toy y_opts ex_hang.
Proof.
  apply cmd_fits_ok; cbn; [unfold N.le; cbn; repeat (intros _ || (split; [discriminate|])); exact I|].
  intros d [H|[H|[H|[]]]]; discriminate.
Qed.
Lemma fits_bait : cmd_fits toy y_opts ex_bait.
Proof.
  apply cmd_fits_ok; cbn.
  - unfold N.le. cbn. split; [discriminate|]. intro H. exfalso. now apply H.
  - intros d [H|[H|[H|[]]]]; discriminate.
Qed.
Lemma fits_noop : forall t, t = "A1"%string \/ t = "A2"%string -> cmd_fits toy y_opts (cmd t "NOOP").
Proof.
  intros t [->| ->]; (apply cmd_fits_ok; cbn;
    [unfold N.le; cbn; split; [discriminate|exact I]|intros d [H|[]]; discriminate]).
Qed.

Lemma yran_ex : forall o acts, fst (yx_run o acts) <> None ->
  yran toy false ex_gen ygen_s o ex_greeting acts (yx_sys o acts) (yx_log o acts).
Proof.
  unfold yran, yx_sys, yx_log, yx_run. intros o acts H. destruct (sys_run _ _ _) as [[y|] l]; cbn in *.
  - reflexivity.
  - contradiction.
Qed.

Definition ran_ok (o : soptions) (acts : list yact) : Prop :=
  yran toy false ex_gen ygen_s o ex_greeting acts (yx_sys o acts) (yx_log o acts).

Ltac start := unfold ran_ok; apply yran_ex; vm_compute; discriminate.

(** ** Too long *)

Lemma smuggle_facts : let l := yx_log y_opts acts_smuggle in
  ran_ok y_opts acts_smuggle /\ msgs_ok y_opts l /\ cmds_ok l /\ tags_ok l /\ polite (slogs l) /\
  foreign l (cmd "A9" "LOGOUT").
Proof.
  split; [start|].
  split; [check_msgs y_opts (yx_log y_opts acts_smuggle)|].
  split; [cmds_tac ltac:(exact enc_smuggle)|].
  split; [check_tags (yx_log y_opts acts_smuggle)|].
  split; [check_polite (yx_log y_opts acts_smuggle)|foreign].
Qed.

Lemma cross_non_sync_facts : let l := yx_log y_small (acts_cross "19+") in
  ran_ok y_small (acts_cross "19+") /\ msgs_ok y_small l /\ cmds_ok l /\ tags_ok l /\ polite (slogs l) /\
  foreign l (cmd "A9" "LOGOUT").
Proof.
  split; [start|].
  split; [check_msgs y_small (yx_log y_small (acts_cross "19+"))|].
  split; [cmds_tac ltac:(exact enc_cross_non_sync)|].
  split; [check_tags (yx_log y_small (acts_cross "19+"))|].
  split; [check_polite (yx_log y_small (acts_cross "19+"))|foreign].
Qed.

Lemma cross_sync_facts : let l := yx_log y_small (acts_cross "19") in
  ran_ok y_small (acts_cross "19") /\ msgs_ok y_small l /\ cmds_ok l /\ tags_ok l /\ polite (slogs l) /\
  foreign l (cmd "9" "LOGOUT").
Proof.
  split; [start|].
  split; [check_msgs y_small (yx_log y_small (acts_cross "19"))|].
  split; [cmds_tac ltac:(exact enc_cross_sync)|].
  split; [check_tags (yx_log y_small (acts_cross "19"))|].
  split; [check_polite (yx_log y_small (acts_cross "19"))|foreign].
Qed.

Lemma hang_facts : let l := yx_log y_tiny acts_hang in
  ran_ok y_tiny acts_hang /\ msgs_ok y_tiny l /\ cmds_ok l /\ tags_ok l /\ polite (slogs l) /\
  waiting_twice toy (yx_sys y_tiny acts_hang) /\ oldest (clogs l) = Some (hd_ 0, ex_hang).
Proof.
  split; [start|].
  split; [check_msgs y_tiny (yx_log y_tiny acts_hang)|].
  split; [cmds_tac ltac:(exact enc_hang)|].
  split; [check_tags (yx_log y_tiny acts_hang)|].
  split; [check_polite (yx_log y_tiny acts_hang)|].
  split; [|vm_compute; reflexivity].
  split; [split; [vm_compute; reflexivity|]; split; [vm_compute; reflexivity|];
    split; eexists; vm_compute; reflexivity|].
  eexists; eexists; split; vm_compute; reflexivity.
Qed.

(** ** Tags and politeness *)

Definition ex_mixed : command := Command (B "A1") (BOther (ln "APPEND {5}" ++ B "A2 NOOP")).

Lemma tags_facts : let l := yx_log y_opts acts_tags in
  ran_ok y_opts acts_tags /\ msgs_ok y_opts l /\ cmds_ok l /\ fits_ok y_opts l /\ polite (slogs l) /\
  foreign l ex_mixed.
Proof.
  split; [start|].
  split; [check_msgs y_opts (yx_log y_opts acts_tags)|].
  split; [cmds_tac ltac:(first [exact enc_hang | apply (enc_noop "A1"); now left | apply (enc_noop "A2"); now right])|].
  split; [cmds_tac ltac:(first [exact fits_hang | apply (fits_noop "A1"); now left | apply (fits_noop "A2"); now right])|].
  split; [check_polite (yx_log y_opts acts_tags)|foreign].
Qed.

Lemma early_facts : let l := yx_log y_opts acts_early in
  ran_ok y_opts acts_early /\ msgs_ok y_opts l /\ cmds_ok l /\ fits_ok y_opts l /\ tags_ok l /\
  foreign l ex_mixed.
Proof.
  split; [start|].
  split; [check_msgs y_opts (yx_log y_opts acts_early)|].
  split; [cmds_tac ltac:(first [exact enc_hang | apply (enc_noop "A2"); now right])|].
  split; [cmds_tac ltac:(first [exact fits_hang | apply (fits_noop "A2"); now right])|].
  split; [check_tags (yx_log y_opts acts_early)|foreign].
Qed.

Lemma bait_facts : let l := yx_log y_opts acts_bait_end in
  ran_ok y_opts acts_bait_end /\ msgs_ok y_opts l /\ cmds_ok l /\ fits_ok y_opts l /\ tags_ok l /\
  foreign l (cmd "A9" "LOGOUT") /\
  waiting_twice toy (yx_sys y_opts acts_bait_end) /\
  reported_all (events (clogs l)) =
    [RStatus (StTagged (B "A1") (StatusBody SkBad None (B "too long")))] /\
  visible (scheduled y_opts ex_greeting (slogs l)) =
    [RCcr (CcrBasic None (B "idle")); RStatus (StTagged (B "A1") (StatusBody SkBad None (B "too long")))].
Proof.
  split; [start|].
  split; [check_msgs y_opts (yx_log y_opts acts_bait_end)|].
  split; [cmds_tac ltac:(exact enc_bait)|].
  split; [cmds_tac ltac:(exact fits_bait)|].
  split; [check_tags (yx_log y_opts acts_bait_end)|].
  split; [foreign|].
  split; [split; [split; [vm_compute; reflexivity|]; split; [vm_compute; reflexivity|];
    split; eexists; vm_compute; reflexivity|eexists; eexists; split; vm_compute; reflexivity]|].
  split; vm_compute; reflexivity.
Qed.
