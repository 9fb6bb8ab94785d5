(** Bytes, slices, explicit panics. *)
From Coq Require Import List NArith Bool Lia.
From Coq Require Export Init.Byte Strings.Byte.
Import ListNotations.

Notation byte := Byte.byte.
Definition bytes := list byte.

(** [b'\n'] and [b'\r'] of src/receive.rs:228-229. *)
Definition LF : byte := x0a.
Definition CR : byte := x0d.

Definition is_lf (b : byte) : bool := Byte.eqb b LF.
Definition is_cr (b : byte) : bool := Byte.eqb b CR.

(** Result of a Rust computation that may panic. *)
Inductive res (A : Type) : Type :=
| Val (a : A)
| Panic.
Arguments Val {A} a.
Arguments Panic {A}.

Definition bind {A B} (x : res A) (f : A -> res B) : res B :=
  match x with Val a => f a | Panic => Panic end.

(** [&l[a..b]]: panics unless [a <= b <= l.len()]. *)
Definition slice {A} (a b : nat) (l : list A) : res (list A) :=
  if Nat.leb a b && Nat.leb b (length l)
  then Val (firstn (b - a) (skipn a l))
  else Panic.

(** Equality test on byte strings ([==] on [Tag], [Vec<u8>]). *)
Fixpoint bytes_eqb (a b : bytes) : bool :=
  match a, b with
  | [], [] => true
  | x :: a', y :: b' => Byte.eqb x y && bytes_eqb a' b'
  | _, _ => false
  end.

Lemma byte_eqb_eq : forall a b, Byte.eqb a b = true <-> a = b.
Proof.
  intros a b. split.
  - apply Byte.byte_dec_bl.
  - apply Byte.byte_dec_lb.
Qed.

Lemma bytes_eqb_eq : forall a b, bytes_eqb a b = true <-> a = b.
Proof.
  induction a as [|x a IH]; destruct b as [|y b]; simpl; split; intro H;
    try reflexivity; try discriminate.
  - apply andb_true_iff in H as [H1 H2].
    apply byte_eqb_eq in H1. apply IH in H2. now subst.
  - inversion H; subst. apply andb_true_iff. split.
    + now apply byte_eqb_eq.
    + now apply IH.
Qed.

Lemma bytes_eqb_refl : forall a, bytes_eqb a a = true.
Proof. intro a. now apply bytes_eqb_eq. Qed.

Lemma bytes_eqb_neq : forall a b, bytes_eqb a b = false <-> a <> b.
Proof.
  intros a b. split; intro H.
  - intro E. apply bytes_eqb_eq in E. congruence.
  - destruct (bytes_eqb a b) eqn:E; [|reflexivity].
    apply bytes_eqb_eq in E. contradiction.
Qed.

Lemma is_lf_true : forall b, is_lf b = true <-> b = LF.
Proof. intro b. apply byte_eqb_eq. Qed.

Lemma is_lf_false : forall b, is_lf b = false <-> b <> LF.
Proof.
  intro b. unfold is_lf. split; intro H.
  - intro E. apply byte_eqb_eq in E. congruence.
  - destruct (Byte.eqb b LF) eqn:E; [|reflexivity].
    apply byte_eqb_eq in E. contradiction.
Qed.
