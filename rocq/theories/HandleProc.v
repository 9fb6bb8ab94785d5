(** A process that creates handle generators and handles (src/handle.rs), possibly from many
    threads. [HandleGenerator::generate] takes [&mut self], and the creation of a generator
    is one [fetch_add], so every execution is an interleaving of these two steps. *)
From Coq Require Import List NArith.
From Verif Require Import Base Types Handle.
Import ListNotations.

Inductive hstep : Type :=
| HsNew                 (** src/handle.rs:70-82, a new generator is appended *)
| HsHandle (k : nat).   (** src/handle.rs:46-54, a handle from the [k]-th generator *)

(** Counter of the generator generator, and the generators. *)
Record hproc : Type := HProc { hp_count : N; hp_gens : list hgen }.
Definition hproc_new : hproc := {| hp_count := hgengen_new; hp_gens := [] |}.

Fixpoint update {A} (l : list A) (k : nat) (x : A) : list A :=
  match l, k with
  | [], _ => []
  | _ :: l', O => x :: l'
  | y :: l', S k' => y :: update l' k' x
  end.

(** A step; generating from a generator that does not exist is no step of the process. *)
Definition hproc_step (p : hproc) (st : hstep) : hproc * list handle :=
  match st with
  | HsNew =>
      let '(c, g) := hgengen_generate (hp_count p) in
      ({| hp_count := c; hp_gens := hp_gens p ++ [g] |}, [])
  | HsHandle k =>
      match nth_error (hp_gens p) k with
      | None => (p, [])
      | Some g =>
          let '(g', h) := hgen_generate g in
          ({| hp_count := hp_count p; hp_gens := update (hp_gens p) k g' |}, [h])
      end
  end.

(** All handles, in order of generation. *)
Fixpoint hproc_run (p : hproc) (sts : list hstep) : hproc * list handle :=
  match sts with
  | [] => (p, [])
  | st :: sts' =>
      let '(p1, hs) := hproc_step p st in
      let '(p2, hs') := hproc_run p1 sts' in (p2, hs ++ hs')
  end.

(** Number of generators created, and of handles requested from the [k]-th. *)
Fixpoint news (sts : list hstep) : nat :=
  match sts with
  | [] => 0
  | HsNew :: sts' => S (news sts')
  | _ :: sts' => news sts'
  end.
Fixpoint asked (k : nat) (sts : list hstep) : nat :=
  match sts with
  | [] => 0
  | HsHandle j :: sts' => (if Nat.eqb j k then 1 else 0) + asked k sts'
  | _ :: sts' => asked k sts'
  end.
