(** Model of src/handle.rs. *)
From Coq Require Import List NArith.
From Verif Require Import Base Types.
Import ListNotations.

Definition two64 : N := 18446744073709551616.

(** [u64::wrapping_add(1)]; also the effect of [AtomicU64::fetch_add(1)], which wraps. *)
Definition wrap_succ (n : N) : N := N.modulo (n + 1) two64.

(** src/handle.rs:27-34 [HandleGenerator]. *)
Record hgen : Type := HGen { hg_id : N; hg_next : N }.

(** src/handle.rs:46-54 [HandleGenerator::generate]. *)
Definition hgen_generate (g : hgen) : hgen * handle :=
  ({| hg_id := hg_id g; hg_next := wrap_succ (hg_next g) |},
   {| h_gen := hg_id g; h_id := hg_next g |}).

(** src/handle.rs:63-68 [HandleGeneratorGenerator::new]: the counter starts at 0. *)
Definition hgengen_new : N := 0%N.

(** src/handle.rs:70-82 [HandleGeneratorGenerator::generate]; [fetch_add] is one atomic
    step. *)
Definition hgengen_generate (c : N) : N * hgen :=
  (wrap_succ c, {| hg_id := c; hg_next := 0%N |}).
