(** The tests with a client and a server, exhaustively. *)
From Coq Require Import List NArith Bool.
From Verif Require Import Base Codec Testers SpecTests TestRuns Tests TestChecks.
Import ListNotations.

Lemma pair_tests_checked : forallb (pair_checks true) pair_tests = true.
Proof. (vm_compute; reflexivity). Qed.
Lemma large_checked : pair_checks false (pair_send_large_messages_in_parallel 3 1) = true.
Proof. (vm_compute; reflexivity). Qed.
