(** The other tests of the server, exhaustively. *)
From Coq Require Import List NArith Bool.
From Verif Require Import Base Codec Testers SpecTests TestRuns Tests TestChecks.
Import ListNotations.

Lemma server_tests_checked_2 : forallb server_check (skipn 16 server_tests) = true.
Proof. (vm_compute; reflexivity). Qed.
