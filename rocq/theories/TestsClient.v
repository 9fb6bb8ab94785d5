(** The tests of the client, exhaustively. *)
From Coq Require Import List NArith Bool.
From Verif Require Import Base Codec Testers SpecTests TestRuns Tests TestChecks.
Import ListNotations.

Lemma client_tests_checked : forallb client_check client_tests = true.
Proof. (vm_compute; reflexivity). Qed.
