(** Handles returned by a client or server are unique. *)
From Coq Require Import List NArith PeanoNat Lia ZifyNat ZifyN.
From Verif Require Import Base Types Codec Handle Client Server SpecClient SpecServer
  ClientAbs ServerAbs ClientInv IdProofs ClientThms ServerThms.
Import ListNotations.

(** Handles returned by the calls of a log. *)
Definition call_handle {A} (r : handle + A) : list handle :=
  match r with inl h => [h] | inr _ => [] end.
Definition sgiven_by (e : slog) : list handle :=
  match e with
  | SlEnqueue _ h => [h]
  | SlAuthContinue _ r => call_handle r
  | SlAuthFinish _ r => call_handle r
  | SlIdleAccept _ r => call_handle r
  | SlIdleReject _ r => call_handle r
  | _ => []
  end.
Definition sgiven (l : list slog) : list handle := flat_map sgiven_by l.

(** The generator [g] after [n] handles, and these handles. *)
Definition gen_after (g : hgen) (n : nat) : hgen :=
  HGen (hg_id g) (if Nat.eqb n 0 then hg_next g else N.modulo (hg_next g + N.of_nat n) two64).
Definition gen_handle (g : hgen) (i : nat) : handle := snd (hgen_generate (gen_after g i)).

Lemma gen_after_S : forall g n, fst (hgen_generate (gen_after g n)) = gen_after g (S n).
Proof.
  intros g n. unfold gen_after. cbn. f_equal. unfold wrap_succ. destruct n as [|n]; cbn [Nat.eqb].
  - reflexivity.
  - rewrite N.add_mod_idemp_l by discriminate. f_equal. lia.
Qed.

Lemma gen_handles_nodup : forall g n, (N.of_nat n <= two64)%N -> (hg_next g < two64)%N ->
  NoDup (map (gen_handle g) (seq 0 n)).
Proof.
  intros g n Hn Hg. apply nodup_map; [apply seq_NoDup|].
  intros i j Hi Hj E. apply in_seq in Hi, Hj. unfold gen_handle, gen_after in E. cbn in E.
  assert (X : forall i, (if Nat.eqb i 0 then hg_next g else N.modulo (hg_next g + N.of_nat i) two64) =
    N.modulo (hg_next g + N.of_nat i) two64).
  { intros [|k]; cbn [Nat.eqb]; [|reflexivity]. rewrite N.add_0_r. symmetry. now apply N.mod_small. }
  rewrite !X in E. injection E as E.
  assert (Y : forall a b, (a < two64)%N -> (b < two64)%N ->
    ((hg_next g + a) mod two64 = (hg_next g + b) mod two64)%N -> a = b).
  { intros a b Ha Hb H.
    pose proof (N.div_mod (hg_next g + a) two64 ltac:(discriminate)).
    pose proof (N.div_mod (hg_next g + b) two64 ltac:(discriminate)).
    rewrite H in *. clear H. set (q1 := ((hg_next g + a) / two64)%N) in *.
    set (q2 := ((hg_next g + b) / two64)%N) in *.
    assert (q1 <= 1)%N by (apply N.lt_succ_r, N.div_lt_upper_bound; [discriminate|unfold two64 in *; lia]).
    assert (q2 <= 1)%N by (apply N.lt_succ_r, N.div_lt_upper_bound; [discriminate|unfold two64 in *; lia]).
    assert (q1 = 0 \/ q1 = 1)%N as [E1|E1] by lia; assert (q2 = 0 \/ q2 = 1)%N as [E2|E2] by lia;
      rewrite E1, E2 in *; unfold two64 in *; lia. }
  apply Y in E; lia.
Qed.

Lemma seq_snoc : forall n, seq 0 (S n) = seq 0 n ++ [n].
Proof. intro n. rewrite seq_S. reflexivity. Qed.

Lemma asteps_handles : forall K rl a l a', asteps K rl a l a' -> forall g, a_gen a = g ->
  map fst (enqueued l) = map (gen_handle g) (seq 0 (length (enqueued l))) /\
  a_gen a' = gen_after g (length (enqueued l)).
Proof.
  intros K rl a l a' H g Hg. induction H as [a|a l a1 l1 a2 H IH S].
  - split; [reflexivity|]. rewrite Hg. now destruct g.
  - destruct (IH Hg) as [I1 I2]. rewrite enqueued_app, app_length, map_app, I1.
    inversion S; subst; cbn [enqueued map length];
      rewrite ?app_nil_r, ?Nat.add_0_r; cbn [a_gen a_set_send a_set_buf]; auto.
    rewrite Nat.add_1_r, seq_snoc, map_app. cbn [map]. rewrite I2 in *.
    match goal with E : hgen_generate _ = _ |- _ =>
      pose proof (gen_after_S (a_gen a) (length (enqueued l))) as X; unfold gen_handle; rewrite E in * end.
    cbn [fst snd] in *. auto.
Qed.

Lemma client_handles : forall K rl g ops c l, ran K rl g ops c l ->
  (hg_next g < two64)%N -> (N.of_nat (length (enqueued l)) <= two64)%N ->
  NoDup (map fst (enqueued l)) /\ forall h cm, In (h, cm) (enqueued l) -> h_gen h = hg_id g.
Proof.
  intros K rl g ops c l Hr Hg Hn. destruct (client_run_new K rl g ops c l Hr) as (a & S & _).
  destruct (asteps_handles _ _ _ _ _ S g eq_refl) as [E _]. split.
  - rewrite E. now apply gen_handles_nodup.
  - intros h cm Hi. apply (in_map fst) in Hi. cbn in Hi. rewrite E in Hi.
    apply in_map_iff in Hi as (i & <- & _). reflexivity.
Qed.

Lemma sgiven_app : forall a b, sgiven (a ++ b) = sgiven a ++ sgiven b.
Proof. intros. apply flat_map_app. Qed.

Lemma xsteps_handles : forall K o a l a', xsteps K o a l a' -> forall g, x_gen a = g ->
  sgiven l = map (gen_handle g) (seq 0 (length (sgiven l))) /\
  x_gen a' = gen_after g (length (sgiven l)).
Proof.
  intros K o a l a' H g Hg. induction H as [a|a l a1 l1 a2 H IH S].
  - split; [reflexivity|]. rewrite Hg. now destruct g.
  - destruct (IH Hg) as [I1 I2]. rewrite sgiven_app, app_length.
    assert (X : (sgiven l1 = [] /\ x_gen a2 = x_gen a1) \/
      (exists g' h, hgen_generate (x_gen a1) = (g', h) /\ sgiven l1 = [h] /\ x_gen a2 = g')).
    { destruct S as [a0 p a2 e H0| | | | | |]; try (left; auto; fail).
      unfold xcall, xenqueue in H0. destruct (hgen_generate (x_gen a0)) as [g' h] eqn:E.
      destruct p; cbn in H0; try discriminate; try (destruct (x_mode a0)); injection H0 as <- <-;
        try (left; split; reflexivity); right; exists g', h; auto. }
    destruct X as [[-> ->]|(g' & h & E & -> & ->)]; cbn [length].
    + rewrite app_nil_r, Nat.add_0_r. auto.
    + rewrite Nat.add_1_r, seq_snoc, map_app, <- I1. rewrite I2 in E.
      pose proof (gen_after_S g (length (sgiven l))) as Y. cbn [map]. unfold gen_handle.
      rewrite E in *. auto.
Qed.

Lemma server_handles : forall K g o gr ops s l, sran K g o gr ops s l ->
  (hg_next g < two64)%N -> (N.of_nat (length (sgiven l)) <= two64)%N ->
  NoDup (sgiven l) /\ forall h, In h (sgiven l) -> h_gen h = hg_id g.
Proof.
  intros K g o gr ops s l Hr Hg Hn.
  destruct (server_run_new K o g gr ops s l Hr) as (a & S & _).
  destruct (xsteps_handles _ _ _ _ _ S g eq_refl) as [E _]. split.
  - rewrite E. now apply gen_handles_nodup.
  - intros h Hi. rewrite E in Hi. apply in_map_iff in Hi as (i & <- & _). reflexivity.
Qed.
