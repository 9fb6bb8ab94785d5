(** Uniqueness of handles and tags. *)
From Coq Require Import List NArith PeanoNat Lia ZifyNat ZifyN.
From Coq Require Import DecimalN.
From Verif Require Import Base Types Handle HandleProc TagGen.
Import ListNotations.

(** ** Schedules

    [None]: a generator is created; [Some k]: the [k]-th generator is used. The result is,
    for each use of an existing generator, its number and how often it was used before. *)
Definition bump (c : nat -> nat) (k : nat) : nat -> nat :=
  fun i => if Nat.eqb k i then S (c i) else c i.

Fixpoint idx (n : nat) (c : nat -> nat) (sts : list (option nat)) : list (nat * nat) :=
  match sts with
  | [] => []
  | None :: sts' => idx (S n) c sts'
  | Some k :: sts' =>
      if Nat.ltb k n then (k, c k) :: idx n (bump c k) sts' else idx n c sts'
  end.

Fixpoint nnone (sts : list (option nat)) : nat :=
  match sts with [] => 0 | None :: s => S (nnone s) | Some _ :: s => nnone s end.
Fixpoint nsome (k : nat) (sts : list (option nat)) : nat :=
  match sts with
  | [] => 0
  | Some j :: s => (if Nat.eqb j k then 1 else 0) + nsome k s
  | None :: s => nsome k s
  end.

Lemma idx_in : forall sts n c k j, In (k, j) (idx n c sts) ->
  k < n + nnone sts /\ c k <= j < c k + nsome k sts.
Proof.
  induction sts as [|[i|] sts IH]; intros n c k j H; cbn [idx nnone nsome] in *; [destruct H| |].
  - revert H. destruct (Nat.ltb_spec i n) as [Hlt|Hlt]; intro H.
    + destruct H as [E|H].
      * injection E as <- <-. rewrite Nat.eqb_refl. lia.
      * apply IH in H. unfold bump in H. destruct (Nat.eqb_spec i k); lia.
    + apply IH in H. destruct (Nat.eqb_spec i k); lia.
  - apply IH in H. lia.
Qed.

Lemma idx_nodup : forall sts n c, NoDup (idx n c sts).
Proof.
  induction sts as [|[i|] sts IH]; intros n c; cbn [idx]; [constructor| |apply IH].
  destruct (Nat.ltb i n); [|apply IH]. constructor; [|apply IH].
  intro H. apply idx_in in H. unfold bump in H. rewrite Nat.eqb_refl in H. lia.
Qed.

Lemma nodup_map : forall {A B} (f : A -> B) l, NoDup l ->
  (forall x y, In x l -> In y l -> f x = f y -> x = y) -> NoDup (map f l).
Proof.
  induction l as [|x l IH]; intros H Hf; cbn; [constructor|].
  inversion H as [|? ? Hn Hl]. constructor.
  - intro Hi. apply in_map_iff in Hi as (y & E & Hy). apply Hn.
    rewrite (Hf x y); cbn; auto.
  - apply IH; [assumption|]. intros; apply Hf; cbn; auto.
Qed.

Definition w64 (n : nat) : N := N.modulo (N.of_nat n) two64.

Lemma wrap_w64 : forall n, wrap_succ (w64 n) = w64 (S n).
Proof.
  intro n. unfold wrap_succ, w64. rewrite N.add_mod_idemp_l by discriminate.
  f_equal. lia.
Qed.

Lemma w64_inj : forall n m, (N.of_nat n < two64)%N -> (N.of_nat m < two64)%N -> w64 n = w64 m -> n = m.
Proof. intros n m Hn Hm. unfold w64. rewrite !N.mod_small by assumption. lia. Qed.

Lemma nth_update : forall {A} (l : list A) k x i, i < length l ->
  nth_error (update l k x) i = if Nat.eqb k i then Some x else nth_error l i.
Proof.
  induction l as [|y l IH]; intros k x i Hi; cbn in Hi; [lia|].
  destruct k, i; cbn; auto. apply IH. lia.
Qed.

Lemma update_length : forall {A} (l : list A) k x, length (update l k x) = length l.
Proof. induction l as [|y l IH]; intros [|k] x; cbn; auto. Qed.

(** ** Handles *)
Definition sched (st : hstep) : option nat := match st with HsNew => None | HsHandle k => Some k end.

Definition hp_ok (p : hproc) (n : nat) (c : nat -> nat) : Prop :=
  hp_count p = w64 n /\ length (hp_gens p) = n /\
  (forall k, k < n -> nth_error (hp_gens p) k = Some (HGen (w64 k) (w64 (c k)))) /\
  (forall k, n <= k -> c k = 0).

Lemma hproc_run_idx : forall sts p n c, hp_ok p n c ->
  snd (hproc_run p sts) = map (fun x => Handle (w64 (fst x)) (w64 (snd x))) (idx n c (map sched sts)).
Proof.
  induction sts as [|[|k] sts IH]; intros p n c (H1 & H2 & H3 & H4); [reflexivity| |].
  - cbn [hproc_run hproc_step hgengen_generate].
    match goal with |- context[hproc_run ?q sts] =>
      assert (Hq : hp_ok q (S n) c); [|specialize (IH q _ _ Hq); destruct (hproc_run q sts); exact IH] end.
    rewrite H1. split; [apply wrap_w64|]. cbn [hp_gens]. split; [rewrite app_length; cbn; lia|].
    split; [|intros; apply H4; lia].
    intros k Hk. destruct (Nat.eq_dec k n) as [->|].
    + rewrite nth_error_app2, H2, Nat.sub_diag by lia. cbn. rewrite (H4 n) by lia. reflexivity.
    + rewrite nth_error_app1 by lia. apply H3. lia.
  - cbn [hproc_run hproc_step map sched idx]. destruct (Nat.ltb_spec k n).
    + rewrite H3 by assumption. cbn [hgen_generate hg_id hg_next].
      match goal with |- context[hproc_run ?q sts] =>
        assert (Hq : hp_ok q n (bump c k)); [|specialize (IH q _ _ Hq); destruct (hproc_run q sts)] end.
      { split; [exact H1|]. cbn [hp_gens]. split; [now rewrite update_length|]. split.
        - intros i Hi. rewrite nth_update by lia. unfold bump.
          destruct (Nat.eqb_spec k i) as [->|]; [now rewrite wrap_w64|auto].
        - intros i Hi. unfold bump. destruct (Nat.eqb_spec k i); [lia|auto]. }
      cbn [snd] in *. rewrite IH. reflexivity.
    + rewrite (proj2 (nth_error_None _ _)) by lia.
      specialize (IH p n c (conj H1 (conj H2 (conj H3 H4)))). destruct (hproc_run p sts). exact IH.
Qed.

Lemma nnone_sched : forall sts, nnone (map sched sts) = news sts.
Proof. induction sts as [|[|k] sts IH]; cbn; auto. Qed.
Lemma nsome_sched : forall k sts, nsome k (map sched sts) = asked k sts.
Proof. induction sts as [|[|j] sts IH]; cbn; auto. Qed.

Lemma hproc_new_ok : hp_ok hproc_new 0 (fun _ => 0).
Proof. split; [reflexivity|]. split; [reflexivity|]. split; [lia|auto]. Qed.

Lemma handles_unique : forall sts,
  (N.of_nat (news sts) <= two64)%N ->
  (forall k, (N.of_nat (asked k sts) <= two64)%N) ->
  NoDup (snd (hproc_run hproc_new sts)).
Proof.
  intros sts Hn Ha. rewrite (hproc_run_idx sts _ _ _ hproc_new_ok).
  apply nodup_map; [apply idx_nodup|].
  intros [k1 j1] [k2 j2] I1 I2 E. apply idx_in in I1, I2. cbn [fst snd] in E.
  rewrite nnone_sched, nsome_sched in *. pose proof (Ha k1). pose proof (Ha k2).
  injection E as E1 E2. apply w64_inj in E1; [|lia..]. apply w64_inj in E2; [|lia..]. congruence.
Qed.

(** The bound on the number of handles is sharp. *)
Lemma gen_sequence : forall n g, nat_rect (fun _ => hgen) g (fun _ g => fst (hgen_generate g)) n =
  HGen (hg_id g) (if Nat.eqb n 0 then hg_next g else N.modulo (hg_next g + N.of_nat n) two64).
Proof.
  induction n as [|n IH]; intro g; cbn [nat_rect Nat.eqb]; [now destruct g|].
  rewrite IH. cbn. f_equal. unfold wrap_succ. destruct n as [|n]; cbn [Nat.eqb].
  - reflexivity.
  - rewrite N.add_mod_idemp_l by discriminate. f_equal. lia.
Qed.

Lemma handles_wrap : forall g, (hg_next g < two64)%N ->
  let g' := nat_rect (fun _ => hgen) g (fun _ g => fst (hgen_generate g)) (N.to_nat two64) in
  snd (hgen_generate g') = snd (hgen_generate g).
Proof.
  intros g Hg g'. unfold g'. rewrite gen_sequence. cbn [hgen_generate snd hg_id hg_next].
  f_equal. rewrite N2Nat.id. destruct (Nat.eqb_spec (N.to_nat two64) 0) as [E|E].
  - exfalso. apply (f_equal N.of_nat) in E. rewrite N2Nat.id in E. discriminate.
  - rewrite <- N.add_mod_idemp_r, N.mod_same, N.add_0_r by discriminate. now apply N.mod_small.
Qed.

(** ** Tags *)
Definition tsched (st : tstep) : option nat := match st with TsNew => None | TsTag k _ => Some k end.

Definition is_digit (b : byte) : Prop := (48 <= Byte.to_N b <= 57)%N.

Lemma uint_digits : forall u, Forall is_digit (uint_bytes u).
Proof. induction u; constructor; auto; unfold is_digit; cbn; lia. Qed.
Lemma decimal_digits : forall n, Forall is_digit (decimal n).
Proof. intro n. apply uint_digits. Qed.

Lemma uint_bytes_inj : forall u v, uint_bytes u = uint_bytes v -> u = v.
Proof.
  induction u as [|u IH|u IH|u IH|u IH|u IH|u IH|u IH|u IH|u IH|u IH]; intros [] E; cbn in E;
    try discriminate; try reflexivity; injection E as E; now rewrite (IH _ E).
Qed.
Lemma decimal_inj : forall n m, decimal n = decimal m -> n = m.
Proof.
  intros n m E. apply uint_bytes_inj in E. apply (f_equal N.of_uint) in E.
  now rewrite !Unsigned.of_to in E.
Qed.

Lemma decimal_nonempty : forall n, decimal n <> [].
Proof.
  intros n E. assert (N.to_uint n = Decimal.Nil) as H by (destruct (N.to_uint n) eqn:X; auto;
    unfold decimal in E; rewrite X in E; discriminate).
  destruct n as [|p]; [discriminate|]. cbn in H. 
  now apply (DecimalPos.Unsigned.to_uint_nonnil p).
Qed.

(** Digits followed by something else can be cut off in one way. *)
Lemma digits_cut : forall a b x y, Forall is_digit a -> Forall is_digit b ->
  (x = [] \/ exists r, x = DOT :: r) -> (y = [] \/ exists r, y = DOT :: r) ->
  a ++ x = b ++ y -> a = b /\ x = y.
Proof.
  assert (Hd : ~ is_digit DOT) by (unfold is_digit; cbn; lia).
  induction a as [|d a IH]; intros [|e b] x y Ha Hb Hx Hy E; cbn in E.
  - auto.
  - exfalso. subst x. inversion Hb; subst. destruct Hx as [|(r & Hr)]; [discriminate|].
    injection Hr as -> _. auto.
  - exfalso. subst y. inversion Ha; subst. destruct Hy as [|(r & Hr)]; [discriminate|].
    injection Hr as -> _. auto.
  - injection E as -> E. inversion Ha; inversion Hb; subst.
    destruct (IH b x y) as [-> ->]; auto.
Qed.

Definition tag_of (k j : N) (token : option bytes) : bytes :=
  decimal k ++ DOT :: decimal j ++ match token with Some t => DOT :: t | None => [] end.

Lemma tag_of_inj : forall k j t k' j' t', tag_of k j t = tag_of k' j' t' -> k = k' /\ j = j'.
Proof.
  intros k j t k' j' t' E. unfold tag_of in E.
  apply digits_cut in E as [E1 E2]; try apply decimal_digits; eauto.
  injection E2 as E2. apply digits_cut in E2 as [E2 _]; try apply decimal_digits.
  - split; now apply decimal_inj.
  - destruct t; eauto.
  - destruct t'; eauto.
Qed.

Definition tp_ok (p : tproc) (n : nat) (c : nat -> nat) : Prop :=
  tp_count p = w64 n /\ length (tp_gens p) = n /\
  (forall k, k < n -> nth_error (tp_gens p) k = Some (TGen (w64 k) (w64 (c k)))) /\
  (forall k, n <= k -> c k = 0).

Lemma nth_tupdate : forall l k x i, i < length l ->
  nth_error (tupdate l k x) i = if Nat.eqb k i then Some x else nth_error l i.
Proof.
  induction l as [|y l IH]; intros k x i Hi; cbn in Hi; [lia|].
  destruct k, i; cbn; auto. apply IH. lia.
Qed.
Lemma tupdate_length : forall l k x, length (tupdate l k x) = length l.
Proof. induction l as [|y l IH]; intros [|k] x; cbn; auto. Qed.

Lemma tproc_run_idx : forall sts p n c, tp_ok p n c ->
  Forall2 (fun t x => exists tok, In tok (tokens sts) /\ t = tag_of (w64 (fst x)) (w64 (snd x)) tok)
    (snd (tproc_run p sts)) (idx n c (map tsched sts)).
Proof.
  assert (W : forall l1 l2 (a b : list (option bytes)), (forall t, In t a -> In t b) ->
    Forall2 (fun t x => exists tok, In tok a /\ t = tag_of (w64 (fst x)) (w64 (snd x)) tok) l1 l2 ->
    Forall2 (fun t x => exists tok, In tok b /\ t = tag_of (w64 (fst x)) (w64 (snd x)) tok) l1 l2).
  { intros l1 l2 a b Hab H. induction H as [|t x l1 l2 (tok & Hi & E) H IH]; constructor; eauto. }
  induction sts as [|[|k tok] sts IH]; intros p n c (H1 & H2 & H3 & H4); [constructor| |].
  - cbn [tproc_run tproc_step tgen_new].
    match goal with |- context[tproc_run ?q sts] =>
      assert (Hq : tp_ok q (S n) c); [|specialize (IH q _ _ Hq); destruct (tproc_run q sts); exact IH] end.
    rewrite H1. split; [apply wrap_w64|]. cbn [tp_gens]. split; [rewrite app_length; cbn; lia|].
    split; [|intros; apply H4; lia].
    intros k Hk. destruct (Nat.eq_dec k n) as [->|].
    + rewrite nth_error_app2, H2, Nat.sub_diag by lia. cbn. rewrite (H4 n) by lia. reflexivity.
    + rewrite nth_error_app1 by lia. apply H3. lia.
  - cbn [tproc_run tproc_step map tsched idx tokens]. destruct (Nat.ltb_spec k n).
    + rewrite H3 by assumption. cbn [tgen_generate tg_global tg_counter].
      match goal with |- context[tproc_run ?q sts] =>
        assert (Hq : tp_ok q n (bump c k)); [|specialize (IH q _ _ Hq); destruct (tproc_run q sts)] end.
      { split; [exact H1|]. cbn [tp_gens]. split; [now rewrite tupdate_length|]. split.
        - intros i Hi. rewrite nth_tupdate by lia. unfold bump.
          destruct (Nat.eqb_spec k i) as [->|]; [now rewrite wrap_w64|auto].
        - intros i Hi. unfold bump. destruct (Nat.eqb_spec k i); [lia|auto]. }
      cbn [snd app] in *. constructor; [exists tok; cbn; auto|].
      eapply W; [|exact IH]. cbn. auto.
    + rewrite (proj2 (nth_error_None _ _)) by lia.
      specialize (IH p n c (conj H1 (conj H2 (conj H3 H4)))). destruct (tproc_run p sts).
      eapply W; [|exact IH]. cbn. auto.
Qed.

Lemma tnnone_sched : forall sts, nnone (map tsched sts) = tnews sts.
Proof. induction sts as [|[|k] sts IH]; cbn; auto. Qed.
Lemma tnsome_sched : forall k sts, nsome k (map tsched sts) = tasked k sts.
Proof. induction sts as [|[|j] sts IH]; cbn; auto. Qed.

Lemma forall2_nodup : forall {A B} (R : A -> B -> Prop) l1 l2, Forall2 R l1 l2 -> NoDup l2 ->
  (forall a b b', In b l2 -> In b' l2 -> R a b -> R a b' -> b = b') -> NoDup l1.
Proof.
  induction 1 as [|a b l1 l2 H HF IH]; intros Hn HR; [constructor|].
  inversion Hn as [|? ? Hb Hl]; subst. constructor.
  - intro Hi. apply Hb. clear IH.
    assert (X : exists b', In b' l2 /\ R a b').
    { clear - HF Hi. induction HF as [|x y l1 l2 Hxy HF IH]; [contradiction|].
      destruct Hi as [->|Hi]; [exists y; cbn; auto|].
      destruct (IH Hi) as (b' & Hb & Hr). exists b'. cbn. auto. }
    destruct X as (b' & Hb' & Hr). rewrite (HR a b b'); cbn; auto.
  - apply IH; [assumption|]. intros x y y' Hy Hy'. apply HR; cbn; auto.
Qed.

Lemma tproc_new_ok : tp_ok tproc_new 0 (fun _ => 0).
Proof. split; [reflexivity|]. split; [reflexivity|]. split; [lia|auto]. Qed.

Lemma tags_unique : forall sts,
  (N.of_nat (tnews sts) <= two64)%N ->
  (forall k, (N.of_nat (tasked k sts) <= two64)%N) ->
  NoDup (snd (tproc_run tproc_new sts)).
Proof.
  intros sts Hn Ha.
  eapply forall2_nodup; [apply (tproc_run_idx sts _ _ _ tproc_new_ok)|apply idx_nodup|].
  intros t [k1 j1] [k2 j2] I1 I2 (t1 & _ & E1) (t2 & _ & E2). apply idx_in in I1, I2.
  rewrite tnnone_sched, tnsome_sched in *. pose proof (Ha k1). pose proof (Ha k2).
  rewrite E1 in E2. apply tag_of_inj in E2 as [E3 E4]. cbn [fst snd] in *.
  apply w64_inj in E3; [|lia..]. apply w64_inj in E4; [|lia..]. congruence.
Qed.

(** A tag (RFC 3501): one or more characters; none of the control characters, space, or
    ( ) open brace percent asterisk double-quote backslash plus. *)
Definition tag_char (b : byte) : Prop :=
  (33 <= Byte.to_N b <= 126)%N /\
  ~ In (Byte.to_N b) [40; 41; 123; 37; 42; 34; 92; 43]%N.
Definition alphanumeric (b : byte) : Prop :=
  (48 <= Byte.to_N b <= 57 \/ 65 <= Byte.to_N b <= 90 \/ 97 <= Byte.to_N b <= 122)%N.
Definition valid_tag (t : bytes) : Prop := t <> [] /\ Forall tag_char t.

Lemma alnum_tag_char : forall b, alphanumeric b -> tag_char b.
Proof. intros b H. unfold alphanumeric, tag_char in *. cbn. lia. Qed.

Lemma tags_valid : forall sts,
  (forall t, In (Some t) (tokens sts) -> Forall alphanumeric t) ->
  Forall valid_tag (snd (tproc_run tproc_new sts)).
Proof.
  intros sts Ht. pose proof (tproc_run_idx sts _ _ _ tproc_new_ok) as H.
  induction H as [|t x l1 l2 (tok & Hi & ->) H IH]; constructor; [|exact IH].
  assert (D : forall n, Forall tag_char (decimal n)).
  { intro n. eapply Forall_impl; [|apply decimal_digits]. intros b Hb. apply alnum_tag_char.
    left. exact Hb. }
  assert (P : tag_char DOT) by (split; cbn; lia).
  split.
  - unfold tag_of. intro E. apply app_eq_nil in E as [_ E]. discriminate.
  - unfold tag_of. apply Forall_app. split; [apply D|]. constructor; [exact P|].
    apply Forall_app. split; [apply D|]. destruct tok as [tk|]; [|constructor].
    constructor; [exact P|]. eapply Forall_impl; [exact alnum_tag_char|]. apply Ht; exact Hi.
Qed.
