(** C68, C69: the integration tests under every schedule. *)
From Coq Require Import NArith Bool PeanoNat Lia String List.
From Verif Require Import Base Codec ToyCodec Testers SpecTests TestRuns Tests TestChecks
  TesterProofs TestsClient TestsServer TestsServer2 TestsPair TestSizes.
Import ListNotations.
Open Scope list_scope.

Lemma forallb_Forall : forall A (f : A -> bool) (P : A -> Prop) l,
  (forall x, f x = true -> P x) -> forallb f l = true -> Forall P l.
Proof.
  intros A f P l H E. rewrite forallb_forall in E. apply Forall_forall. intros x I. now apply H, E.
Qed.

(** C68 *)
Theorem C68_client_tests : Forall always_passes client_tests.
Proof. exact (forallb_Forall _ _ _ _ client_check_passes client_tests_checked). Qed.
Print Assumptions C68_client_tests.

Theorem C68_server_tests : Forall always_passes server_tests.
Proof.
  rewrite <- (firstn_skipn 16 server_tests). apply Forall_app. split.
  - exact (forallb_Forall _ _ _ _ server_check_passes server_tests_checked_1).
  - exact (forallb_Forall _ _ _ _ server_check_passes server_tests_checked_2).
Qed.
Print Assumptions C68_server_tests.

Theorem C68_client_server_tests : Forall always_passes pair_tests.
Proof. exact (forallb_Forall _ _ _ _ pair_check_passes pair_tests_checked). Qed.
Print Assumptions C68_client_server_tests.

Theorem C68_self_test : always_passes self_test.
Proof.
  pose proof C68_client_server_tests as H. rewrite Forall_forall in H. apply H.
  apply in_or_app. right. apply in_or_app. right. cbn [In]. tauto.
Qed.
Print Assumptions C68_self_test.

(** The tests do return under some schedule. *)
Theorem C68_tests_return :
  Forall can_pass client_tests /\ Forall can_pass server_tests /\ Forall can_pass pair_tests.
Proof.
  repeat split; eapply Forall_impl; try (intros t; apply passes_can).
  - exact C68_client_tests.
  - exact C68_server_tests.
  - exact C68_client_server_tests.
Qed.
Print Assumptions C68_tests_return.

(** For example, one after the other. *)
Definition lockstep : list choice :=
  flat_map (fun _ => [KPollL; KPollL; KPollR; KPollR; KWriteL 100; KWriteR 100; KReadL 100; KReadR 100; KNext]) (seq 0 40).
Example C68_lockstep :
  returned self_test (trun CE SE self_test (tstart CE SE self_test) lockstep).
Proof. apply returns_returned. (vm_compute; reflexivity). Qed.

(** Tests with wrong expectations do not pass. *)
Definition wrong_status := client_test false roomy
  [c_greets greeting; c_sends (noop "A1");
   Both [CiNext (CxStatus (ok "A2")) : e_ins CE] [MSend (ok "A1") : e_ins ME]].
Example C68_wrong_status : ~ always_passes wrong_status.
Proof. apply panic_fails. exists lockstep. (vm_compute; reflexivity). Qed.
Definition missing_status := client_test false roomy
  [c_greets greeting; c_sends (noop "A1");
   Both [CiNext (CxStatus (ok "A1")) : e_ins CE] [MReceive (ok "A1") : e_ins ME]].
Example C68_missing_status : ~ always_passes missing_status.
Proof. apply hang_fails. apply (dead_end CE ME _ (client_splits imap) mock_splits lockstep). (vm_compute; reflexivity). Qed.
Definition wrong_bytes := client_test false roomy
  [c_greets greeting;
   Both [CiEnqueue (noop "A1") : e_ins CE; CiNext CxSent : e_ins CE] [MReceive (noop "A2") : e_ins ME]].
Example C68_wrong_bytes : ~ always_passes wrong_bytes.
Proof. apply panic_fails. exists lockstep. (vm_compute; reflexivity). Qed.

(** In general, the mock notices every difference as soon as it is there, and keeps what it does
    not expect yet. *)
Theorem C68_mock_receives : forall m want m' v, mock_receive m want = (m', v) ->
  match v with
  | VDone => mk_buf m = want ++ mk_buf m'
  | VGoing => m' = m /\ exists x, x <> [] /\ want = mk_buf m ++ x
  | VPanic => forall x y, mk_buf m ++ x <> want ++ y
  end.
Proof.
  intros m want m' v. unfold mock_receive. destruct (Nat.ltb_spec (length (mk_buf m)) (length want)) as [L|L].
  - destruct (bytes_eqb _ _) eqn:E; intro H; injection H as <- <-.
    + apply bytes_eqb_eq in E. split; [reflexivity|]. exists (skipn (length (mk_buf m)) want). split.
      * intro X. apply (f_equal (@length _)) in X. rewrite skipn_length in X. cbn in X. lia.
      * pattern (mk_buf m) at 1. rewrite <- E. symmetry. apply firstn_skipn.
    + apply bytes_eqb_neq in E. intros x y X. apply E. apply (f_equal (firstn (length (mk_buf m)))) in X.
      rewrite !firstn_app, firstn_all, Nat.sub_diag, (proj2 (Nat.sub_0_le (length (mk_buf m)) (length want))) in X by lia.
      cbn [firstn] in X. rewrite !app_nil_r in X. now symmetry.
  - destruct (bytes_eqb _ _) eqn:E; intro H; injection H as <- <-.
    + apply bytes_eqb_eq in E. cbn [mk_buf]. rewrite E at 1. now rewrite firstn_skipn.
    + apply bytes_eqb_neq in E. intros x y X. apply E. apply (f_equal (firstn (length want))) in X.
      rewrite !firstn_app, firstn_all, Nat.sub_diag, (proj2 (Nat.sub_0_le (length want) (length (mk_buf m)))) in X by lia.
      cbn [firstn] in X. rewrite !app_nil_r in X. now symmetry.
Qed.
Print Assumptions C68_mock_receives.

(** The functions of the testers return exactly if [next] returned what they wait for, and panic
    otherwise. *)
Theorem C68_client_tester : forall K t x r,
  (client_wants K (ct_cmd K t) x r -> c_after K (CiNext x) t [Stream.XRet r] = (t, VDone)) /\
  (~ client_wants K (ct_cmd K t) x r -> c_after K (CiNext x) t [Stream.XRet r] = (t, VPanic)).
Proof.
  intros K t x r. rewrite <- c_meets_iff. cbn [c_after outcome].
  destruct (c_meets K t x r); split; intro H; try reflexivity; [now contradiction H|discriminate].
Qed.
Print Assumptions C68_client_tester.

Theorem C68_server_tester : forall K t x r z,
  let t' := s_set K t z in
  (server_wants K (st_sent K t) x r -> s_after K (SiNext x) t z [Stream.XRet r] = (t', VDone)) /\
  (~ server_wants K (st_sent K t) x r -> s_after K (SiNext x) t z [Stream.XRet r] = (t', VPanic)).
Proof.
  intros K t x r z t'. change (st_sent K t) with (st_sent K t'). rewrite <- s_meets_iff.
  cbn [s_after outcome]. fold t'.
  destruct (s_meets K t' x r); split; intro H; try reflexivity; [now contradiction H|discriminate].
Qed.
Print Assumptions C68_server_tester.

(** Both happen. *)
Example C68_tester_example :
  let s t := Types.StTagged t (Types.StatusBody Types.SkOk None Server.dots) in
  let r t := @Stream.RetEvent (StreamMachine.client_machine imap) (Types.CeStatusReceived (s t)) in
  let a1 := list_byte_of_string "A1" in
  client_wants imap None (CxStatus (ok "A1")) (r a1) /\
  ~ client_wants imap None (CxStatus (ok "A2")) (r a1).
Proof.
  intros s r a1. split.
  - apply CwStatus. unfold is_status. vm_compute. reflexivity.
  - intro H. inversion H as [| | | | | | |b s' E| | | | | |]. subst. vm_compute in E. discriminate E.
Qed.

Example C68_literal_not_too_long : ~ always_passes (server_test (o_literal 4 Server.dots Server.dots) roomy
  [s_greets greeting; s_receives login]).
Proof. apply panic_fails. exists lockstep. (vm_compute; reflexivity). Qed.

(** C69 *)
Definition large := pair_send_large_messages_in_parallel.

(** The client reads before it has written its command. *)
Definition upto_large : list choice :=
  flat_map (fun _ => [KPollL; KPollR; KWriteR 3; KReadL 3]) (seq 0 6) ++ [KNext] ++
  flat_map (fun _ => [KPollL; KPollR; KWriteL 3; KReadR 3]) (seq 0 6) ++ [KNext].
Definition reads_first : list choice :=
  upto_large ++ [KPollL; KPollL; KPollR; KPollR; KWriteR 3; KReadL 3; KWriteR 3].
(** The server reads before it has written its status. *)
Definition server_reads_first : list choice :=
  upto_large ++ [KPollL; KPollL; KPollR; KPollR; KWriteL 3; KReadR 3; KWriteL 3].
(** There is enough room in the network. *)
Definition reads_first_roomy : list choice :=
  upto_large ++ [KPollL; KPollL; KPollR; KPollR; KWriteR 100; KReadL 3; KNext; KPollL; KReadL 100; KPollR].

Theorem C69_large_messages_can_hang :
  can_hang (large 3 15) /\ can_hang (large roomy 15).
Proof.
  split.
  - apply (dead_end CE SE _ (client_splits imap) (server_splits imap) reads_first). (vm_compute; reflexivity).
  - apply (dead_end CE SE _ (client_splits imap) (server_splits imap) reads_first_roomy). (vm_compute; reflexivity).
Qed.
Print Assumptions C69_large_messages_can_hang.
Theorem C69_large_messages_refuted : ~ always_passes (large 3 15) /\ ~ always_passes (large roomy 15).
Proof. destruct C69_large_messages_can_hang as [H1 H2]. split; apply hang_fails; assumption. Qed.
Print Assumptions C69_large_messages_refuted.
(** Neither the size of the messages nor the room in the network matters. *)
Theorem C69_large_messages_hang_at_every_size : forall cap n, 1 <= cap ->
  can_hang (large cap n) /\ ~ always_passes (large cap n).
Proof.
  intros cap n H. assert (can_hang (large cap n)) by exact (large_hangs cap n H).
  split; [assumption|]. now apply hang_fails.
Qed.
Print Assumptions C69_large_messages_hang_at_every_size.
(** Nor is it enough that both take turns. *)
Definition in_turns : list choice :=
  upto_large ++ flat_map (fun _ => [KPollL; KPollR; KWriteL 3; KWriteR 3; KReadL 3; KReadR 3; KNext]) (seq 0 20).
Theorem C69_taking_turns_hangs :
  let s := trun CE SE (large 3 15) (tstart CE SE (large 3 15)) in_turns in
  ts_ph s = 3 /\ ts_panic s = false /\ forall k, tstep CE SE (large 3 15) s k = None.
Proof.
  intro s. split; [(vm_compute; reflexivity)|]. split; [vm_cast_no_check (eq_refl false)|].
  apply (no_succs CE SE _ (client_splits imap) (server_splits imap)). (vm_compute; reflexivity).
Qed.
Print Assumptions C69_taking_turns_hangs.
Theorem C69_server_hangs_too :
  let s := trun CE SE (large 3 15) (tstart CE SE (large 3 15)) server_reads_first in
  ts_ph s = 2 /\ ts_panic s = false /\ forall k, tstep CE SE (large 3 15) s k = None.
Proof.
  intro s. split; [(vm_compute; reflexivity)|]. split; [vm_cast_no_check (eq_refl false)|].
  apply (no_succs CE SE _ (client_splits imap) (server_splits imap)). (vm_compute; reflexivity).
Qed.
Print Assumptions C69_server_hangs_too.

(** Both have written their message before the other one has read it: the test returns. *)
Definition write_first : list choice :=
  upto_large ++ [KPollL; KPollL; KPollR; KPollR; KWriteL 3; KWriteR 3; KReadL 3; KReadR 3; KNext; KPollL; KPollR] ++
  flat_map (fun _ => [KWriteL 3; KReadR 3]) (seq 0 9) ++ flat_map (fun _ => [KWriteR 3; KReadL 3]) (seq 0 6) ++
  [KWriteL 3; KWriteR 3; KReadL 3; KReadR 3; KNext].
Theorem C69_large_messages_can_pass : can_pass (large 3 15).
Proof. exists write_first. apply returns_returned. (vm_compute; reflexivity). Qed.
Print Assumptions C69_large_messages_can_pass.
Theorem C69_large_messages_never_panic : never_fails (large 3 1).
Proof. exact (pair_check_safe _ large_checked). Qed.
Print Assumptions C69_large_messages_never_panic.
