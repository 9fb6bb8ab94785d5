(** Model of tag-generator/src/lib.rs. *)
From Coq Require Import List NArith.
From Coq Require Decimal.
From Verif Require Import Base Types Handle.
Import ListNotations.

(** [Display] of [u64]: decimal digits, no leading zeros. *)
Fixpoint uint_bytes (u : Decimal.uint) : bytes :=
  match u with
  | Decimal.Nil => []
  | Decimal.D0 u => x30 :: uint_bytes u
  | Decimal.D1 u => x31 :: uint_bytes u
  | Decimal.D2 u => x32 :: uint_bytes u
  | Decimal.D3 u => x33 :: uint_bytes u
  | Decimal.D4 u => x34 :: uint_bytes u
  | Decimal.D5 u => x35 :: uint_bytes u
  | Decimal.D6 u => x36 :: uint_bytes u
  | Decimal.D7 u => x37 :: uint_bytes u
  | Decimal.D8 u => x38 :: uint_bytes u
  | Decimal.D9 u => x39 :: uint_bytes u
  end.
Definition decimal (n : N) : bytes := uint_bytes (N.to_uint n).

Definition DOT : byte := x2e.

(** tag-generator/src/lib.rs:9-13 [TagGenerator]. *)
Record tgen : Type := TGen { tg_global : N; tg_counter : N }.

(** tag-generator/src/lib.rs:20-26 [new]: one atomic step on the global counter. *)
Definition tgen_new (count : N) : N * tgen :=
  (wrap_succ count, {| tg_global := count; tg_counter := 0%N |}).

(** tag-generator/src/lib.rs:35-50 [generate]. [token]: the random token in release builds
    (lines 36-40), [None] in debug builds (lines 43-44). *)
Definition tgen_generate (g : tgen) (token : option bytes) : tgen * bytes :=
  let inner := decimal (tg_global g) ++ DOT :: decimal (tg_counter g) ++
    match token with Some t => DOT :: t | None => [] end in
  ({| tg_global := tg_global g; tg_counter := wrap_succ (tg_counter g) |}, inner).

(** A process with many generators, as in HandleProc.v. *)
Inductive tstep : Type :=
| TsNew
| TsTag (k : nat) (token : option bytes).

Record tproc : Type := TProc { tp_count : N; tp_gens : list tgen }.

(** tag-generator/src/lib.rs:7 [GLOBAL_TAG_GENERATOR_COUNT]. *)
Definition tproc_new : tproc := {| tp_count := 0%N; tp_gens := [] |}.

Fixpoint tupdate (l : list tgen) (k : nat) (x : tgen) : list tgen :=
  match l, k with
  | [], _ => []
  | _ :: l', O => x :: l'
  | y :: l', S k' => y :: tupdate l' k' x
  end.

Definition tproc_step (p : tproc) (st : tstep) : tproc * list bytes :=
  match st with
  | TsNew =>
      let '(c, g) := tgen_new (tp_count p) in
      ({| tp_count := c; tp_gens := tp_gens p ++ [g] |}, [])
  | TsTag k token =>
      match nth_error (tp_gens p) k with
      | None => (p, [])
      | Some g =>
          let '(g', t) := tgen_generate g token in
          ({| tp_count := tp_count p; tp_gens := tupdate (tp_gens p) k g' |}, [t])
      end
  end.

Fixpoint tproc_run (p : tproc) (sts : list tstep) : tproc * list bytes :=
  match sts with
  | [] => (p, [])
  | st :: sts' =>
      let '(p1, ts) := tproc_step p st in
      let '(p2, ts') := tproc_run p1 sts' in (p2, ts ++ ts')
  end.

Fixpoint tnews (sts : list tstep) : nat :=
  match sts with
  | [] => 0
  | TsNew :: sts' => S (tnews sts')
  | _ :: sts' => tnews sts'
  end.
Fixpoint tasked (k : nat) (sts : list tstep) : nat :=
  match sts with
  | [] => 0
  | TsTag j _ :: sts' => (if Nat.eqb j k then 1 else 0) + tasked k sts'
  | _ :: sts' => tasked k sts'
  end.
Fixpoint tokens (sts : list tstep) : list (option bytes) :=
  match sts with
  | [] => []
  | TsTag _ t :: sts' => t :: tokens sts'
  | _ :: sts' => tokens sts'
  end.
