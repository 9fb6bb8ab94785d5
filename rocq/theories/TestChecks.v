(** The exhaustive searches for the three kinds of tests. *)
From Coq Require Import List NArith Bool.
From Verif Require Import Base Codec Testers SpecTests TestRuns Tests.
Import ListNotations.

Definition depth : nat := 5000.
Definition client_check (t : test CE ME) : bool :=
  searched CE ME (ctester_dec imap) mock_dec (ctester_hash imap) mock_hash t depth true.
Lemma client_check_passes : forall t, client_check t = true -> always_passes t.
Proof. intros t. apply searched_passes; [apply client_splits|apply mock_splits]. Qed.

Definition server_check (t : test ME SE) : bool :=
  searched ME SE mock_dec (stester_dec imap) mock_hash (stester_hash imap) t depth true.
Lemma server_check_passes : forall t, server_check t = true -> always_passes t.
Proof. intros t. apply searched_passes; [apply mock_splits|apply server_splits]. Qed.

Definition pair_checks (strict : bool) (t : test CE SE) : bool :=
  searched CE SE (ctester_dec imap) (stester_dec imap) (ctester_hash imap) (stester_hash imap) t depth strict.
Lemma pair_check_passes : forall t, pair_checks true t = true -> always_passes t.
Proof. intros t. apply searched_passes; [apply client_splits|apply server_splits]. Qed.
Lemma pair_check_safe : forall t, pair_checks false t = true -> never_fails t.
Proof. intros t. apply searched_safe; [apply client_splits|apply server_splits]. Qed.
