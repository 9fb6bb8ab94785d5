(** All schedules of a test, by exhaustive search. *)
From Coq Require Import List NArith PArith Bool PeanoNat Lia FMapPositive.
From Verif Require Import Base Types Codec Handle Receive ClientSend Client ServerSend Server Stream StreamMachine
  Testers SpecTests.
Import ListNotations.

Section Search.
Context (E1 E2 : side) (dec1 : forall a b : e_st E1, {a = b} + {a <> b})
  (dec2 : forall a b : e_st E2, {a = b} + {a <> b}) (h1 : e_st E1 -> N) (h2 : e_st E2 -> N).
Notation tst := (tstate E1 E2).

Definition tst_eqb (a b : tst) : bool :=
  Nat.eqb (ts_ph a) (ts_ph b) && Nat.eqb (ts_lpc a) (ts_lpc b) && Nat.eqb (ts_rpc a) (ts_rpc b) &&
  Bool.eqb (ts_panic a) (ts_panic b) &&
  (if dec1 (ts_l a) (ts_l b) then true else false) && (if dec2 (ts_r a) (ts_r b) then true else false) &&
  (if bytes_dec (ts_right a) (ts_right b) then true else false) &&
  (if bytes_dec (ts_left a) (ts_left b) then true else false).
Lemma tst_eqb_eq : forall a b, tst_eqb a b = true -> a = b.
Proof.
  intros a b H. unfold tst_eqb in H. repeat (apply andb_prop in H; destruct H as [H ?]).
  destruct (dec1 _ _); [|discriminate]. destruct (dec2 _ _); [|discriminate].
  destruct (bytes_dec (ts_right a) _); [|discriminate]. destruct (bytes_dec (ts_left a) _); [|discriminate].
  repeat match goal with H : Nat.eqb _ _ = true |- _ => apply Nat.eqb_eq in H end.
  match goal with H : Bool.eqb _ _ = true |- _ => apply eqb_prop in H end.
  destruct a, b; cbn in *; now subst.
Qed.

(** Where a state is in the table. *)
Definition mixup (a b : N) : N := (N.double (N.double (N.double (N.double (N.double a)))) + b)%N.
Definition tst_key (s : tst) : positive :=
  N.succ_pos (mixup (mixup (mixup (mixup (mixup (mixup (h1 (ts_l s)) (h2 (ts_r s)))
    (N.of_nat (length (ts_right s)))) (N.of_nat (length (ts_left s))))
    (N.of_nat (ts_rpc s))) (N.of_nat (ts_lpc s))) (N.of_nat (ts_ph s))).

(** Tables of states with numbers. *)
Notation table := (PositiveMap.t (list (tst * nat))).
Definition bucket (m : table) (k : positive) : list (tst * nat) :=
  match PositiveMap.find k m with Some l => l | None => [] end.
Definition tadd (m : table) (k : positive) (x : tst * nat) : table := PositiveMap.add k (x :: bucket m k) m.
Fixpoint assoc (l : list (tst * nat)) (s : tst) : option nat :=
  match l with
  | [] => None
  | (s', n) :: l' => if tst_eqb s' s then Some n else assoc l' s
  end.

Definition has (m : table) (s : tst) (n : nat) : Prop := exists k, In (s, n) (bucket m k).
Lemma has_empty : forall s n, ~ has (PositiveMap.empty _) s n.
Proof. intros s n [k H]. unfold bucket in H. rewrite PositiveMap.gempty in H. contradiction. Qed.
Lemma bucket_add : forall m k x k', bucket (tadd m k x) k' = if Pos.eq_dec k' k then x :: bucket m k else bucket m k'.
Proof.
  intros m k x k'. unfold tadd, bucket. destruct (Pos.eq_dec k' k) as [->|E].
  - now rewrite PositiveMap.gss.
  - now rewrite PositiveMap.gso.
Qed.
Lemma has_new : forall m k s n, has (tadd m k (s, n)) s n.
Proof. intros m k s n. exists k. rewrite bucket_add. destruct (Pos.eq_dec k k) as [_|E]; [now left|now destruct E]. Qed.
Lemma has_old : forall m k x s n, has m s n -> has (tadd m k x) s n.
Proof.
  intros m k x s n [k' H]. exists k'. rewrite bucket_add. destruct (Pos.eq_dec k' k) as [->|_]; [now right|exact H].
Qed.
Lemma has_add : forall m k x s n, has (tadd m k x) s n -> (s, n) = x \/ has m s n.
Proof.
  intros m k x s n [k' H]. rewrite bucket_add in H. destruct (Pos.eq_dec k' k) as [->|_].
  - destruct H as [H|H]; [now left|right; now exists k].
  - right. now exists k'.
Qed.
Lemma assoc_in : forall l s n, assoc l s = Some n -> In (s, n) l.
Proof.
  induction l as [|[s' n'] l IH]; intros s n H; [discriminate|]. cbn in H.
  destruct (tst_eqb s' s) eqn:E.
  - injection H as <-. apply tst_eqb_eq in E. subst. now left.
  - right. auto.
Qed.

Context (t : test E1 E2).
Notation step := (tstep E1 E2 t).

(** Choices that make a difference: of writes, those of single bytes. *)
Definition kinds (s : tst) : list choice :=
  [KPollL; KPollR; KNext; KWriteL 1; KWriteR 1] ++
  map KReadL (seq 1 (length (ts_left s))) ++ map KReadR (seq 1 (length (ts_right s))).

Fixpoint somes {A} (l : list (option A)) : list A :=
  match l with
  | [] => []
  | Some a :: l' => a :: somes l'
  | None :: l' => somes l'
  end.
Lemma in_somes : forall A (l : list (option A)) a, In (Some a) l -> In a (somes l).
Proof.
  induction l as [|[x|] l IH]; intros a H; cbn in *; [contradiction| |].
  - destruct H as [H|H]; [injection H as ->; now left|right; auto].
  - destruct H as [H|H]; [discriminate|auto].
Qed.
Lemma somes_in : forall A (l : list (option A)) a, In a (somes l) -> In (Some a) l.
Proof.
  induction l as [|[x|] l IH]; intros a H; cbn in *; [contradiction| |].
  - destruct H as [H|H]; [subst; now left|right; auto].
  - right. auto.
Qed.
Definition succs (s : tst) : list tst := somes (map (step s) (kinds s)).

Lemma firstn_len : forall (b : bytes) n, firstn n b = firstn (Nat.min n (length b)) b.
Proof.
  intros b n. destruct (Nat.le_ge_cases n (length b)) as [H|H].
  - now rewrite Nat.min_l.
  - rewrite Nat.min_r by exact H. rewrite firstn_all. now apply firstn_all2.
Qed.
Lemma skipn_len : forall (b : bytes) n, skipn n b = skipn (Nat.min n (length b)) b.
Proof.
  intros b n. destruct (Nat.le_ge_cases n (length b)) as [H|H].
  - now rewrite Nat.min_l.
  - rewrite Nat.min_r by exact H. rewrite skipn_all. now apply skipn_all2.
Qed.
Lemma in_seq_1 : forall n m, 0 < Nat.min n m -> In (Nat.min n m) (seq 1 m).
Proof. intros n m H. apply in_seq. lia. Qed.

Definition small (k : choice) : Prop := match k with KWriteL n | KWriteR n => n = 1 | _ => True end.
Lemma succs_all : forall s k s', small k -> step s k = Some s' -> In s' (succs s).
Proof.
  intros s k s' Sm E. apply in_somes.
  assert (P : forall n (b : bytes), firstn n b <> [] -> 0 < Nat.min n (length b)).
  { intros [|n] [|x b] H; cbn in *; try (now destruct H); lia. }
  assert (F : exists k', step s k' = Some s' /\ In k' (kinds s)).
  { destruct k as [| |n|n|n|n|]; cbn in Sm.
    - exists KPollL. split; [exact E|]. now left.
    - exists KPollR. split; [exact E|]. right. now left.
    - exists (KReadL (Nat.min n (length (ts_left s)))).
      assert (Q : step s (KReadL (Nat.min n (length (ts_left s)))) = step s (KReadL n)).
      { unfold tstep. now rewrite <- firstn_len, <- skipn_len. }
      rewrite Q. split; [exact E|]. unfold kinds. apply in_or_app. right. apply in_or_app. left.
      apply in_map. apply in_seq_1. apply P. intro Z. clear Q. unfold tstep in E. rewrite Z in E.
      destruct (nth_error (tc_phases t) (ts_ph s)) as [p|]; [|discriminate].
      destruct (ts_panic s); [discriminate|]. destruct (over _ _ _ _); [discriminate|].
      destruct (nth_error _ _); discriminate.
    - exists (KReadR (Nat.min n (length (ts_right s)))).
      assert (Q : step s (KReadR (Nat.min n (length (ts_right s)))) = step s (KReadR n)).
      { unfold tstep. now rewrite <- firstn_len, <- skipn_len. }
      rewrite Q. split; [exact E|]. unfold kinds. apply in_or_app. right. apply in_or_app. right.
      apply in_map. apply in_seq_1. apply P. intro Z. clear Q. unfold tstep in E. rewrite Z in E.
      destruct (nth_error (tc_phases t) (ts_ph s)) as [p|]; [|discriminate].
      destruct (ts_panic s); [discriminate|]. destruct (over _ _ _ _); [discriminate|].
      destruct (nth_error _ _); discriminate.
    - subst n. exists (KWriteL 1). split; [exact E|]. cbn; tauto.
    - subst n. exists (KWriteR 1). split; [exact E|]. cbn; tauto.
    - exists KNext. split; [exact E|]. cbn; tauto. }
  destruct F as (k' & E' & I). rewrite <- E'. now apply in_map.
Qed.
Lemma succs_only : forall s s', In s' (succs s) -> tmoves t s' s.
Proof. intros s s' H. apply somes_in, in_map_iff in H. destruct H as (k & E & _). now exists k. Qed.

(** Writing several bytes is writing one byte and then the others. *)
Definition sp_out (E : side) : Prop := forall i (e : e_st E) n, 1 < n -> n <= length (e_out E e) ->
  exists e1, e_wrote E i e 1 = (e1, VGoing) /\ e_out E e1 = skipn 1 (e_out E e) /\
             e_wrote E i e1 (n - 1) = e_wrote E i e n.
Context (sp1 : sp_out E1) (sp2 : sp_out E2).

Lemma write_l : forall s n s', step s (KWriteL n) = Some s' ->
  step s (KWriteL 1) = Some s' \/
  exists s1 n', step s (KWriteL 1) = Some s1 /\ step s1 (KWriteL n') = Some s' /\
                length (e_out E1 (ts_l s1)) < length (e_out E1 (ts_l s)).
Proof.
  intros s n s' E. unfold tstep in E. destruct (nth_error (tc_phases t) (ts_ph s)) as [p|] eqn:Ep; [|discriminate].
  destruct (ts_panic s) eqn:Epn; [discriminate|]. destruct (over _ _ p s) eqn:Eo; [discriminate|].
  destruct (nth_error (prog_l _ _ p) (ts_lpc s)) as [i|] eqn:Ei; [|discriminate].
  set (o := e_out E1 (ts_l s)) in *.
  destruct (firstn n o) as [|x b] eqn:Ef; [discriminate|].
  destruct (Nat.leb _ _) eqn:El; [|discriminate]. injection E as <-. apply Nat.leb_le in El.
  destruct o as [|y o'] eqn:Eo'; [now destruct n|]. destruct n as [|n]; [discriminate|].
  cbn [firstn] in Ef. injection Ef as <- Eb.
  destruct b as [|z b'].
  - left. unfold tstep. rewrite Ep, Epn, Eo, Ei. fold o. rewrite Eo'. cbn [firstn].
    destruct (Nat.leb_spec (length (ts_right s) + length [y]) (tc_cap t)); [reflexivity|lia].
  - right. set (m := length (y :: z :: b')) in *.
    assert (Lm : 1 < m <= length (y :: o')).
    { unfold m. rewrite <- Eb. cbn [length]. rewrite firstn_length.
      assert (length (z :: b') = Nat.min n (length o')) by now rewrite <- Eb, firstn_length.
      cbn [length] in *. lia. }
    destruct (sp1 i (ts_l s) m) as (e1 & W1 & O1 & W2); [lia|fold o; rewrite Eo'; lia|].
    assert (Bl : length (z :: b') = m - 1) by (unfold m; cbn [length]; lia).
    exists (left_did E1 E2 s (ts_right s ++ [y]) (ts_left s) (e1, VGoing)), (m - 1). split; [|split].
    + unfold tstep. rewrite Ep, Epn, Eo, Ei. fold o. rewrite Eo'. cbn [firstn].
      destruct (Nat.leb_spec (length (ts_right s) + length [y]) (tc_cap t)) as [_|H].
      * cbn [length]. now rewrite W1.
      * cbn [length] in *. unfold m in El. cbn [length] in El. lia.
    + unfold tstep, left_did. cbn [ts_ph ts_panic fst snd ts_lpc ts_l ts_right ts_left ts_rpc ts_r]. rewrite Ep, Epn.
      assert (Ov : over E1 E2 p (@TState E1 E2 e1 (ts_r s) (ts_right s ++ [y]) (ts_left s) (ts_ph s) (ts_lpc s) (ts_rpc s) false)
        = over E1 E2 p s) by reflexivity.
      rewrite Ov, Eo, Ei, O1. fold o. rewrite Eo'. cbn [skipn].
      assert (Fb : firstn (m - 1) o' = z :: b').
      { rewrite <- Bl, <- Eb, firstn_length. rewrite <- firstn_len. reflexivity. }
      rewrite Fb, app_length. cbn [length] in *.
      destruct (Nat.leb_spec (length (ts_right s) + 1 + S (length b')) (tc_cap t)) as [_|H].
      * rewrite Bl, W2. unfold m. rewrite <- app_assoc. reflexivity.
      * unfold m in El. cbn [length] in El. lia.
    + unfold left_did. cbn [ts_l fst]. rewrite O1. fold o. rewrite Eo'. cbn [skipn length]. lia.
Qed.
Lemma write_r : forall s n s', step s (KWriteR n) = Some s' ->
  step s (KWriteR 1) = Some s' \/
  exists s1 n', step s (KWriteR 1) = Some s1 /\ step s1 (KWriteR n') = Some s' /\
                length (e_out E2 (ts_r s1)) < length (e_out E2 (ts_r s)).
Proof.
  intros s n s' E. unfold tstep in E. destruct (nth_error (tc_phases t) (ts_ph s)) as [p|] eqn:Ep; [|discriminate].
  destruct (ts_panic s) eqn:Epn; [discriminate|]. destruct (over _ _ p s) eqn:Eo; [discriminate|].
  destruct (nth_error (prog_r _ _ p) (ts_rpc s)) as [i|] eqn:Ei; [|discriminate].
  set (o := e_out E2 (ts_r s)) in *.
  destruct (firstn n o) as [|x b] eqn:Ef; [discriminate|].
  destruct (Nat.leb _ _) eqn:El; [|discriminate]. injection E as <-. apply Nat.leb_le in El.
  destruct o as [|y o'] eqn:Eo'; [now destruct n|]. destruct n as [|n]; [discriminate|].
  cbn [firstn] in Ef. injection Ef as <- Eb.
  destruct b as [|z b'].
  - left. unfold tstep. rewrite Ep, Epn, Eo, Ei. fold o. rewrite Eo'. cbn [firstn].
    destruct (Nat.leb_spec (length (ts_left s) + length [y]) (tc_cap t)); [reflexivity|lia].
  - right. set (m := length (y :: z :: b')) in *.
    assert (Lm : 1 < m <= length (y :: o')).
    { unfold m. rewrite <- Eb. cbn [length]. rewrite firstn_length.
      assert (length (z :: b') = Nat.min n (length o')) by now rewrite <- Eb, firstn_length.
      cbn [length] in *. lia. }
    destruct (sp2 i (ts_r s) m) as (e1 & W1 & O1 & W2); [lia|fold o; rewrite Eo'; lia|].
    assert (Bl : length (z :: b') = m - 1) by (unfold m; cbn [length]; lia).
    exists (right_did E1 E2 s (ts_right s) (ts_left s ++ [y]) (e1, VGoing)), (m - 1). split; [|split].
    + unfold tstep. rewrite Ep, Epn, Eo, Ei. fold o. rewrite Eo'. cbn [firstn].
      destruct (Nat.leb_spec (length (ts_left s) + length [y]) (tc_cap t)) as [_|H].
      * cbn [length]. now rewrite W1.
      * cbn [length] in *. unfold m in El. cbn [length] in El. lia.
    + unfold tstep, right_did. cbn [ts_ph ts_panic fst snd ts_lpc ts_l ts_right ts_left ts_rpc ts_r]. rewrite Ep, Epn.
      assert (Ov : over E1 E2 p (@TState E1 E2 (ts_l s) e1 (ts_right s) (ts_left s ++ [y]) (ts_ph s) (ts_lpc s) (ts_rpc s) false)
        = over E1 E2 p s) by reflexivity.
      rewrite Ov, Eo, Ei, O1. fold o. rewrite Eo'. cbn [skipn].
      assert (Fb : firstn (m - 1) o' = z :: b').
      { rewrite <- Bl, <- Eb, firstn_length. rewrite <- firstn_len. reflexivity. }
      rewrite Fb, app_length. cbn [length] in *.
      destruct (Nat.leb_spec (length (ts_left s) + 1 + S (length b')) (tc_cap t)) as [_|H].
      * rewrite Bl, W2. unfold m. rewrite <- app_assoc. reflexivity.
      * unfold m in El. cbn [length] in El. lia.
    + unfold right_did. cbn [ts_r fst]. rewrite O1. fold o. rewrite Eo'. cbn [skipn length]. lia.
Qed.

(** Depth-first search for a panic or, if [strict], for a dead end. The numbers in the table are
    bounds of the lengths of the remaining runs. *)
Definition stuck (s : tst) (ss : list tst) : bool :=
  match ss with [] => negb (Nat.eqb (ts_ph s) (length (tc_phases t))) | _ => false end.
Definition through (visit : tst -> table -> option (nat * table)) :=
  fix go (ss : list tst) (n : nat) (m : table) {struct ss} : option (nat * table) :=
    match ss with
    | [] => Some (n, m)
    | s' :: ss' =>
        match visit s' m with
        | None => None
        | Some (n', m') => go ss' (Nat.max n (S n')) m'
        end
    end.
Fixpoint dfs (strict : bool) (fuel : nat) (s : tst) (m : table) : option (nat * table) :=
  let k := tst_key s in
  match assoc (bucket m k) s with
  | Some n => Some (n, m)
  | None =>
      match fuel with
      | O => None
      | S fuel' =>
          if ts_panic s then None
          else
            let ss := succs s in
            if strict && stuck s ss then None
            else
              match through (dfs strict fuel') ss 0 m with
              | None => None
              | Some (n, m') => Some (n, tadd m' k (s, n))
              end
      end
  end.
Definition searched (fuel : nat) (strict : bool) : bool :=
  match dfs strict fuel (tstart E1 E2 t) (PositiveMap.empty _) with Some _ => true | None => false end.

(** What is true of the states in the table. *)
Definition sane (strict : bool) (m : table) : Prop := forall s n, has m s n ->
  ts_panic s = false /\ (strict = true -> stuck s (succs s) = false) /\
  forall s', In s' (succs s) -> exists n', has m s' n' /\ n' < n.
Definition grows (m m' : table) : Prop := forall s n, has m s n -> has m' s n.

Lemma dfs_sane : forall strict fuel s m n m', dfs strict fuel s m = Some (n, m') -> sane strict m ->
  sane strict m' /\ has m' s n /\ grows m m'.
Proof.
  intro strict. induction fuel as [|fuel IH]; intros s m n m' E S0; cbn [dfs] in E;
    destruct (assoc (bucket m (tst_key s)) s) as [n0|] eqn:Ea; try discriminate.
  1, 2: injection E as <- <-; split; [exact S0|]; split; [exists (tst_key s); now apply assoc_in|now intros ? ?].
  destruct (ts_panic s) eqn:Ep; [discriminate|]. destruct (strict && stuck s (succs s)) eqn:Es; [discriminate|].
  destruct (through (dfs strict fuel) (succs s) 0 m) as [[n1 m1]|] eqn:Et; [|discriminate]. injection E as <- <-.
  assert (T : forall ss n0 m0 n1 m1, through (dfs strict fuel) ss n0 m0 = Some (n1, m1) -> sane strict m0 ->
    sane strict m1 /\ grows m0 m1 /\ n0 <= n1 /\ forall s', In s' ss -> exists n', has m1 s' n' /\ n' < n1).
  { clear - IH. induction ss as [|s' ss IHs]; intros n0 m0 n1 m1 E S0; cbn in E.
    - injection E as <- <-. split; [exact S0|]. split; [now intros ? ?|]. split; [lia|]. intros s' [].
    - destruct (dfs strict fuel s' m0) as [[n' m']|] eqn:Ed; [|discriminate].
      destruct (IH _ _ _ _ Ed S0) as (S1 & H1 & G1).
      destruct (IHs _ _ _ _ E S1) as (S2 & G2 & L2 & H2). split; [exact S2|]. split; [now intros ? ? ?; apply G2, G1|].
      split; [lia|]. intros s0 [<-|I]; [|exact (H2 _ I)]. exists n'. split; [now apply G2|lia]. }
  destruct (T _ _ _ _ _ Et S0) as (S1 & G1 & _ & H1). split; [|split].
  - intros s0 k0 H. apply has_add in H. destruct H as [H|H].
    + injection H as -> ->. split; [exact Ep|]. split.
      * intros ->. exact Es.
      * intros s' I. destruct (H1 _ I) as (n' & A & B). exists n'. split; [now apply has_old|exact B].
    + destruct (S1 _ _ H) as (A & B & C). split; [exact A|]. split; [exact B|].
      intros s' I. destruct (C _ I) as (n' & D & F). exists n'. split; [now apply has_old|exact F].
  - apply has_new.
  - intros s0 k0 H. apply has_old. now apply G1.
Qed.

Lemma searched_sound : forall fuel strict, searched fuel strict = true -> forall ks,
  let s := trun E1 E2 t (tstart E1 E2 t) ks in
  ts_panic s = false /\ Acc (tmoves t) s /\ (strict = true -> returned t s \/ exists s', tmoves t s' s).
Proof.
  intros fuel strict H. unfold searched in H.
  destruct (dfs strict fuel (tstart E1 E2 t) (PositiveMap.empty _)) as [[n0 m]|] eqn:E; [|discriminate]. clear H.
  apply dfs_sane in E; [|intros s n Hs; now apply has_empty in Hs]. destruct E as (Sn & E0 & _).
  assert (Cl : forall s n s', has m s n -> tmoves t s' s -> exists n', has m s' n' /\ n' < n).
  { assert (Sm : forall s n s' k, has m s n -> small k -> step s k = Some s' -> exists n', has m s' n' /\ n' < n).
    { intros s n s' k I Kk E. destruct (Sn _ _ I) as (_ & _ & C). apply C. now apply (succs_all _ k). }
    assert (Wl : forall d s n s' w, length (e_out E1 (ts_l s)) < d -> has m s n -> step s (KWriteL w) = Some s' ->
      exists n', has m s' n' /\ n' < n).
    { induction d as [|d IH]; intros s n s' w L I E; [lia|]. destruct (write_l _ _ _ E) as [E1'|(s1 & w1 & Ea & Eb & L1)].
      - exact (Sm s n s' (KWriteL 1) I eq_refl E1').
      - destruct (Sm s n s1 (KWriteL 1) I eq_refl Ea) as (n1 & I1 & N1).
        destruct (IH s1 n1 s' w1) as (n2 & I2 & N2); [lia|exact I1|exact Eb|]. exists n2. split; [exact I2|lia]. }
    assert (Wr : forall d s n s' w, length (e_out E2 (ts_r s)) < d -> has m s n -> step s (KWriteR w) = Some s' ->
      exists n', has m s' n' /\ n' < n).
    { induction d as [|d IH]; intros s n s' w L I E; [lia|]. destruct (write_r _ _ _ E) as [E1'|(s1 & w1 & Ea & Eb & L1)].
      - exact (Sm s n s' (KWriteR 1) I eq_refl E1').
      - destruct (Sm s n s1 (KWriteR 1) I eq_refl Ea) as (n1 & I1 & N1).
        destruct (IH s1 n1 s' w1) as (n2 & I2 & N2); [lia|exact I1|exact Eb|]. exists n2. split; [exact I2|lia]. }
    intros s n s' I [k E]. destruct k as [| |w|w|w|w|]; try (eapply (Sm s n s' _ I); [|exact E]; exact Logic.I).
    - exact (Wl _ _ _ _ _ (Nat.lt_succ_diag_r _) I E).
    - exact (Wr _ _ _ _ _ (Nat.lt_succ_diag_r _) I E). }
  assert (Re : forall ks s n, has m s n -> exists n', has m (trun E1 E2 t s ks) n').
  { induction ks as [|k ks IH]; intros s n I; [now exists n|]. cbn [trun].
    destruct (step s k) as [s'|] eqn:E; [|exact (IH _ _ I)].
    destruct (Cl s n s' I (ex_intro _ k E)) as (n' & I' & _). exact (IH _ _ I'). }
  assert (Ac : forall n s, has m s n -> Acc (tmoves t) s).
  { induction n as [n IH] using (well_founded_induction PeanoNat.Nat.lt_wf_0). intros s I. constructor. intros s' M.
    destruct (Cl s n s' I M) as (n' & I' & L). exact (IH n' L s' I'). }
  intros ks s. destruct (Re ks _ _ E0) as (n & I). fold s in I.
  destruct (Sn _ _ I) as (P & D & _). split; [exact P|]. split; [exact (Ac _ _ I)|]. intros Z. specialize (D Z).
  destruct (succs s) as [|s' ss] eqn:Es.
  - left. split; [|exact P]. cbn in D. apply negb_false_iff in D. now apply Nat.eqb_eq.
  - right. exists s'. apply succs_only. rewrite Es. now left.
Qed.
Theorem searched_passes : forall fuel, searched fuel true = true -> always_passes t.
Proof.
  intros fuel H ks s. destruct (searched_sound fuel true H ks) as (A & C & D). fold s in A, C, D. auto.
Qed.
Theorem searched_safe : forall fuel, searched fuel false = true -> never_fails t.
Proof.
  intros fuel H ks s. destruct (searched_sound fuel false H ks) as (A & C & _). fold s in A, C. auto.
Qed.

(** A state without successors is a dead end. *)
Lemma no_succs : forall s, match succs s with [] => true | _ => false end = true -> forall k, step s k = None.
Proof.
  intros s D k. destruct (step s k) as [s'|] eqn:E; [|reflexivity].
  assert (N : exists s1, In s1 (succs s)).
  { destruct k as [| |w|w|w|w|]; try (exists s'; eapply succs_all; [|exact E]; exact Logic.I).
    - destruct (write_l _ _ _ E) as [E1'|(s1 & w1 & Ea & _)]; [exists s'|exists s1]; now apply (succs_all _ (KWriteL 1)).
    - destruct (write_r _ _ _ E) as [E1'|(s1 & w1 & Ea & _)]; [exists s'|exists s1]; now apply (succs_all _ (KWriteR 1)). }
  destruct N as [s1 N]. destruct (succs s); [contradiction|discriminate].
Qed.
Definition hangs (ks : list choice) : bool :=
  let s := trun E1 E2 t (tstart E1 E2 t) ks in
  negb (Nat.eqb (ts_ph s) (length (tc_phases t))) && negb (ts_panic s) &&
  match succs s with [] => true | _ => false end.
Lemma dead_end : forall ks, hangs ks = true -> can_hang t.
Proof.
  intros ks H. unfold hangs in H. apply andb_prop in H. destruct H as [H D]. apply andb_prop in H. destruct H as [N P].
  apply negb_true_iff, Nat.eqb_neq in N. apply negb_true_iff in P. exists ks. split; [exact N|]. split; [exact P|].
  now apply no_succs.
Qed.
Definition returns (ks : list choice) : bool :=
  let s := trun E1 E2 t (tstart E1 E2 t) ks in Nat.eqb (ts_ph s) (length (tc_phases t)) && negb (ts_panic s).
Lemma returns_returned : forall ks, returns ks = true -> returned t (trun E1 E2 t (tstart E1 E2 t) ks).
Proof.
  intros ks H. apply andb_prop in H. destruct H as [N P]. apply Nat.eqb_eq in N. apply negb_true_iff in P. now split.
Qed.
Lemma hang_fails : can_hang t -> ~ always_passes t.
Proof.
  intros (ks & N & _ & D) H. destruct (H ks) as (_ & _ & [[R _]|[s' [k E]]]); [exact (N R)|].
  rewrite D in E. discriminate.
Qed.
Lemma panic_fails : can_panic t -> ~ always_passes t.
Proof. intros (ks & P) H. destruct (H ks) as (Q & _). congruence. Qed.
Lemma passes_can : always_passes t -> can_pass t.
Proof.
  intro H. destruct (H []) as (_ & A & _). cbn [trun] in A.
  assert (G : forall s, Acc (tmoves t) s -> forall ks, s = trun E1 E2 t (tstart E1 E2 t) ks -> can_pass t).
  { induction 1 as [s _ IH]. intros ks ->. destruct (H ks) as (_ & _ & [R|[s' [k E]]]); [now exists ks|].
    apply (IH s' (ex_intro _ k E) (ks ++ [k])).
    assert (T : forall ks s0, trun E1 E2 t s0 (ks ++ [k]) = trun E1 E2 t (trun E1 E2 t s0 ks) [k]).
    { induction ks0 as [|k0 ks0 IH0]; intro s0; [reflexivity|]. cbn [app trun]. destruct (step s0 k0); apply IH0. }
    rewrite T. cbn [trun]. now rewrite E. }
  exact (G _ A [] eq_refl).
Qed.

End Search.

(** ** Equality of the states of the sides *)
Definition fragment_dec (a b : fragment) : {a = b} + {a <> b}.
decide equality; auto using bytes_dec; decide equality. Defined.
Definition frag_dec (a b : next_fragment) : {a = b} + {a <> b}. eqdec. Defined.
Definition rstate_dec (a b : rstate) : {a = b} + {a <> b}.
decide equality; auto using bytes_dec, frag_dec, Nat.eq_dec, Bool.bool_dec. decide equality; auto using N.eq_dec. Defined.
Definition crecv_dec (a b : crecv) : {a = b} + {a <> b}. decide equality; auto using rstate_dec. Defined.
Definition cact_dec (a b : command_activity) : {a = b} + {a <> b}. decide equality; auto using bytes_dec, obytes_dec. Defined.
Definition aact_dec (a b : authenticate_activity) : {a = b} + {a <> b}. decide equality; auto using bytes_dec. Defined.
Definition iact_dec (a b : idle_activity) : {a = b} + {a <> b}. decide equality; auto using bytes_dec. Defined.
Definition cur_dec (a b : current_message) : {a = b} + {a <> b}.
decide equality; auto using handle_dec, command_dec, ca_dec, cact_dec, aact_dec, iact_dec, bytes_dec, list_eq_dec, fragment_dec.
Defined.
Definition queued_dec (a b : handle * command) : {a = b} + {a <> b}. decide equality; auto using handle_dec, command_dec. Defined.
Definition csend_dec (a b : csend) : {a = b} + {a <> b}.
decide equality; [decide equality; apply cur_dec|apply list_eq_dec, queued_dec]. Defined.
Definition hgen_dec (a b : hgen) : {a = b} + {a <> b}. eqdec. Defined.
Definition client_dec (a b : client) : {a = b} + {a <> b}. decide equality; auto using hgen_dec, csend_dec, crecv_dec. Defined.
Definition smsg_dec (a b : smsg) : {a = b} + {a <> b}.
decide equality; auto using greeting_dec, response_dec. decide equality; auto using handle_dec. Defined.
Definition ssend_dec (a b : ssend) : {a = b} + {a <> b}.
decide equality; [decide equality; apply smsg_dec|apply list_eq_dec, smsg_dec]. Defined.
Definition srecv_dec (a b : srecv) : {a = b} + {a <> b}. decide equality; auto using rstate_dec. Defined.
Definition soptions_dec (a b : soptions) : {a = b} + {a <> b}. eqdec. Defined.
Definition server_dec (a b : server) : {a = b} + {a <> b}.
decide equality; auto using hgen_dec, ssend_dec, srecv_dec, soptions_dec. Defined.
Definition stream_dec (a b : stream no_tls) : {a = b} + {a <> b}.
decide equality; auto using bytes_dec. decide equality. destruct a0. Defined.
Definition fut_dec (a b : fut) : {a = b} + {a <> b}. decide equality. Defined.
Definition cx_dec K (a b : xstate no_tls (client_machine K)) : {a = b} + {a <> b}.
decide equality; [apply fut_dec|apply client_dec|apply stream_dec]. Defined.
Definition sx_dec K (a b : xstate no_tls (server_machine K)) : {a = b} + {a <> b}.
decide equality; [apply fut_dec|apply server_dec|apply stream_dec]. Defined.
Definition ctester_dec K (a b : ctester K) : {a = b} + {a <> b}.
decide equality; [decide equality; apply queued_dec|apply cx_dec]. Defined.
Definition stester_dec K (a b : stester K) : {a = b} + {a <> b}.
decide equality; [decide equality; decide equality; auto using handle_dec, response_dec|decide equality; apply sx_dec
  |apply hgen_dec|apply soptions_dec]. Defined.
Definition mock_dec (a b : mock) : {a = b} + {a <> b}. decide equality; auto using bytes_dec, obytes_dec. Defined.

(** Hashes. *)
Definition len (b : bytes) : N := N.of_nat (length b).
Definition stream_hash (s : stream no_tls) : N := mixup (len (x_rbuf s)) (len (x_wbuf s)).
Definition crecv_hash (r : crecv) : N :=
  match r with CrGreeting s => len (rs_buf s) | CrResponse s => (100 + len (rs_buf s)) | CrDummy => 0 end%N.
Definition srecv_hash (r : srecv) : N :=
  match r with SrCommand s | SrAuthenticateData s | SrIdleAccept s | SrIdleDone s => len (rs_buf s) | SrDummy => 0 end.
Definition ctester_hash K (t : ctester K) : N :=
  mixup (stream_hash (x_s (ct_x K t))) (crecv_hash (c_recv (x_m (ct_x K t)))).
Definition stester_hash K (t : stester K) : N :=
  match st_x K t with
  | Some x => mixup (stream_hash (x_s x)) (srecv_hash (s_recv (x_m x)))
  | None => 0
  end.
Definition mock_hash (m : mock) : N :=
  mixup (len (mk_buf m)) (match mk_send m with Some b => 1 + len b | None => 0 end)%N.

(** ** Writing byte by byte *)
Lemma skipn_skipn' : forall (b : bytes) n, 0 < n -> skipn (n - 1) (skipn 1 b) = skipn n b.
Proof. intros b n H. destruct n as [|n]; [lia|]. destruct b; cbn [skipn]; [now rewrite skipn_nil|]. now rewrite Nat.sub_succ, Nat.sub_0_r. Qed.
Lemma mock_splits : sp_out mock_end.
Proof.
  intros i m n L1 L2. cbn in L2. destruct (mk_send m) as [b|] eqn:Em; [|cbn in L2; lia].
  exists (Mock (mk_buf m) (Some (skipn 1 b))). cbn. rewrite Em. destruct b as [|x [|y b]]; cbn in L2; try lia.
  split; [reflexivity|]. split; [reflexivity|]. now rewrite <- (skipn_skipn' (x :: y :: b) n) by lia.
Qed.

Lemma write_splits : forall M (x : xstate no_tls M) n, writing (x_f x) = true -> 1 < n -> n <= length (x_wbuf (x_s x)) ->
  exists x1 b, xstep no_tls M 0 x (@AWrite M (Some 1)) = (x1, [XWrote b]) /\
    writing (x_f x1) = true /\ x_wbuf (x_s x1) = skipn 1 (x_wbuf (x_s x)) /\
    exists x2 b1 b2 l, xstep no_tls M 0 x1 (@AWrite M (Some (n - 1))) = (x2, XWrote b1 :: l) /\
                       xstep no_tls M 0 x (@AWrite M (Some n)) = (x2, XWrote b2 :: l).
Proof.
  intros M [[tl r w] m f] n W L1 L2. cbn [x_f x_s x_wbuf] in *.
  destruct w as [|c [|d w]]; cbn [length] in L2; try lia.
  exists (XState (StreamSt tl r (d :: w)) m f), [c]. split; [|split; [exact W|split; [reflexivity|]]].
  - cbn [xstep x_f]. rewrite W. reflexivity.
  - assert (Q : forall k, xstep no_tls M 0 (XState (StreamSt tl r (d :: w)) m f) (@AWrite M (Some (S k))) =
      if Nat.leb (S k) (length (d :: w)) then
        let s1 := StreamSt tl r (skipn (S k) (d :: w)) in
        match x_wbuf s1 with
        | [] => match f with
                | FSelect => let '(x', l') := sync no_tls M 0 s1 m in (x', XWrote (firstn (S k) (d :: w)) :: l')
                | _ => (XState s1 m FFlushTcp, [XWrote (firstn (S k) (d :: w))])
                end
        | _ => (XState s1 m f, [XWrote (firstn (S k) (d :: w))])
        end
      else (XState (StreamSt tl r (d :: w)) m f, [])).
    { intro k. cbn [xstep x_f x_s x_m x_wbuf x_tls x_rbuf]. rewrite W. reflexivity. }
    assert (Q' : forall k, xstep no_tls M 0 (XState (StreamSt tl r (c :: d :: w)) m f) (@AWrite M (Some (S k))) =
      if Nat.leb (S k) (length (c :: d :: w)) then
        let s1 := StreamSt tl r (skipn (S k) (c :: d :: w)) in
        match x_wbuf s1 with
        | [] => match f with
                | FSelect => let '(x', l') := sync no_tls M 0 s1 m in (x', XWrote (firstn (S k) (c :: d :: w)) :: l')
                | _ => (XState s1 m FFlushTcp, [XWrote (firstn (S k) (c :: d :: w))])
                end
        | _ => (XState s1 m f, [XWrote (firstn (S k) (c :: d :: w))])
        end
      else (XState (StreamSt tl r (c :: d :: w)) m f, [])).
    { intro k. cbn [xstep x_f x_s x_m x_wbuf x_tls x_rbuf]. rewrite W. reflexivity. }
    destruct n as [|[|k]]; [lia|lia|]. replace (S (S k) - 1) with (S k) by lia. rewrite Q, (Q' (S k)).
    destruct (Nat.leb_spec (S k) (length (d :: w))) as [_|H]; [|cbn [length] in H; lia].
    destruct (Nat.leb_spec (S (S k)) (length (c :: d :: w))) as [_|H]; [|cbn [length] in H; lia].
    cbv zeta. change (skipn (S (S k)) (c :: d :: w)) with (skipn (S k) (d :: w)). cbn [x_wbuf].
    destruct (skipn (S k) (d :: w)) as [|z zs].
    + destruct f; try (destruct (sync no_tls M 0 _ m) as [x' l']); do 4 eexists; split; reflexivity.
    + do 4 eexists; split; reflexivity.
Qed.
Lemma client_splits : forall K, sp_out (client_end K).
Proof.
  intros K i t n L1 L2. cbn in L2. destruct (writing (x_f (ct_x K t))) eqn:W; [|cbn in L2; lia].
  destruct (write_splits _ (ct_x K t) n W L1 L2) as (x1 & b & E1 & W1 & O1 & x2 & b1 & b2 & l & E2 & E3).
  exists (c_set K t x1). cbn [e_wrote e_out client_end]. rewrite E1. split; [reflexivity|].
  change (ct_x K (c_set K t x1)) with x1. rewrite W1, W, O1. split; [reflexivity|]. rewrite E2, E3. reflexivity.
Qed.
Lemma server_splits : forall K, sp_out (server_end K).
Proof.
  intros K i t n L1 L2. cbn in L2. destruct (st_x K t) as [x|] eqn:Ex; [|cbn in L2; lia].
  destruct (writing (x_f x)) eqn:W; [|cbn in L2; lia].
  destruct (write_splits _ x n W L1 L2) as (x1 & b & E1 & W1 & O1 & x2 & b1 & b2 & l & E2 & E3).
  exists (s_set K t x1). cbn [e_wrote e_out server_end]. rewrite Ex, E1. split; [reflexivity|].
  change (st_x K (s_set K t x1)) with (Some x1). cbv iota. rewrite W1, W, O1. split; [reflexivity|]. rewrite E2, E3. reflexivity.
Qed.
