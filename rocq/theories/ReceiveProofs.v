(** The incremental reader of src/receive.rs implements the framing specification. *)
From Coq Require Import List NArith Bool PeanoNat Lia ZifyBool ZifyNat ZifyN.
From Verif Require Import Base Types Codec Receive SpecFraming.
Import ListNotations.

(** ** Lists *)

Lemma app_inv_length : forall {A} (a b c d : list A),
  a ++ b = c ++ d -> length a = length c -> a = c /\ b = d.
Proof.
  induction a as [|x a IH]; intros b c d H Hl; destruct c as [|y c]; simpl in *;
    try discriminate.
  - auto.
  - injection H as -> H. apply IH in H as [-> ->]; auto.
Qed.

Lemma app_prefix_cases : forall {A} (a b c d : list A),
  a ++ b = c ++ d ->
  (exists e, c = a ++ e /\ b = e ++ d) \/ (exists e, a = c ++ e /\ d = e ++ b).
Proof.
  induction a as [|x a IH]; intros b c d H.
  - left. exists c. auto.
  - destruct c as [|y c].
    + right. exists (x :: a). auto.
    + simpl in H. injection H as -> H. apply IH in H as [[e [-> ->]]|[e [-> ->]]].
      * left. exists e. auto.
      * right. exists e. auto.
Qed.

Lemma firstn_app_l : forall {A} n (a b : list A), n <= length a -> firstn n (a ++ b) = firstn n a.
Proof.
  intros. rewrite firstn_app. replace (n - length a) with 0 by lia.
  simpl. now rewrite app_nil_r.
Qed.

Lemma firstn_app_exact : forall {A} (a b : list A), firstn (length a) (a ++ b) = a.
Proof. intros. rewrite firstn_app_l by lia. apply firstn_all. Qed.

Lemma skipn_app_exact : forall {A} (a b : list A), skipn (length a) (a ++ b) = b.
Proof. intros. rewrite skipn_app, skipn_all, Nat.sub_diag. reflexivity. Qed.

Lemma In_firstn : forall {A} n (l : list A) x, In x (firstn n l) -> In x l.
Proof.
  intros A n l x H. rewrite <- (firstn_skipn n l). apply in_or_app. auto.
Qed.

Lemma In_firstn_le : forall {A} n m (l : list A) x,
  n <= m -> In x (firstn n l) -> In x (firstn m l).
Proof.
  intros A n m l x Hle H.
  replace (firstn n l) with (firstn n (firstn m l)) in H.
  - eapply In_firstn; eauto.
  - rewrite firstn_firstn. f_equal. lia.
Qed.

(** ** Lines *)

Lemma is_line_unique : forall l1 l2 r1 r2,
  is_line l1 -> is_line l2 -> l1 ++ r1 = l2 ++ r2 -> l1 = l2 /\ r1 = r2.
Proof.
  intros l1 l2 r1 r2 [a [-> Ha]] [b [-> Hb]] H.
  assert (E : a = b /\ r1 = r2).
  { rewrite <- !app_assoc in H. simpl in H. revert b Hb H.
    induction a as [|x a IH]; intros b Hb H; destruct b as [|y b]; simpl in *.
    - injection H as ->. auto.
    - injection H as Hy H. exfalso. apply Hb. left. auto.
    - injection H as Hy H. exfalso. apply Ha. left. auto.
    - injection H as -> H. apply IH in H as [-> ->]; auto. }
  destruct E as [-> ->]. auto.
Qed.

Lemma is_line_nonempty : forall l, is_line l -> 1 <= length l.
Proof. intros l [a [-> _]]. rewrite app_length. simpl. lia. Qed.

Lemma is_line_In : forall l, is_line l -> In LF l.
Proof. intros l [a [-> _]]. apply in_or_app. right. simpl. auto. Qed.

Definition ends_crlfb (l : bytes) : bool :=
  match rev l with
  | b :: a :: _ => is_lf b && is_cr a
  | _ => false
  end.

Lemma ends_crlfb_spec : forall l, ends_crlfb l = true <-> ends_crlf l.
Proof.
  intro l. unfold ends_crlfb, ends_crlf. split.
  - intro H. destruct (rev l) as [|b [|a r]] eqn:E; try discriminate.
    apply andb_true_iff in H as [H1 H2].
    apply is_lf_true in H1. unfold is_cr in H2. apply byte_eqb_eq in H2. subst.
    exists (rev r). rewrite <- (rev_involutive l), E. simpl.
    now rewrite <- app_assoc.
  - intros [l0 ->]. rewrite rev_app_distr. simpl. reflexivity.
Qed.

Lemma ends_crlfb_false : forall l, ends_crlfb l = false <-> ~ ends_crlf l.
Proof.
  intro l. rewrite <- ends_crlfb_spec. destruct (ends_crlfb l); split; congruence.
Qed.

(** ** [position_lf] and [find_crlf] *)

Lemma position_lf_none : forall l, position_lf l = None <-> ~ In LF l.
Proof.
  induction l as [|b l IH]; simpl; split; intro H; auto.
  - destruct (is_lf b) eqn:E; [discriminate|].
    destruct (position_lf l) eqn:E2; [discriminate|].
    apply is_lf_false in E. intros [->|Hin]; [congruence|]. now apply IH.
  - destruct (is_lf b) eqn:E.
    + apply is_lf_true in E. exfalso. auto.
    + destruct (position_lf l) eqn:E2; auto. exfalso.
      assert (Hn : ~ In LF l) by auto. apply IH in Hn. discriminate.
Qed.

Lemma position_lf_some : forall l i,
  position_lf l = Some i <->
  exists a b, l = a ++ LF :: b /\ length a = i /\ ~ In LF a.
Proof.
  induction l as [|b l IH]; intro i; simpl; split; intro H.
  - discriminate.
  - destruct H as [a [b [H _]]]. destruct a; discriminate.
  - destruct (is_lf b) eqn:E.
    + injection H as <-. apply is_lf_true in E. subst. exists [], l. simpl. auto.
    + destruct (position_lf l) as [j|] eqn:E2; [|discriminate].
      simpl in H. injection H as <-.
      destruct (proj1 (IH j) eq_refl) as [a [c [-> [Hl Hn]]]].
      exists (b :: a), c. simpl. repeat split; auto.
      intros [->|Hin]; auto. apply is_lf_false in E. congruence.
  - destruct H as [a [c [H [Hl Hn]]]]. destruct a as [|x a]; simpl in *.
    + injection H as -> ->. subst. reflexivity.
    + injection H as -> ->.
      assert (x <> LF) by auto. destruct (is_lf x) eqn:E.
      * apply is_lf_true in E. congruence.
      * assert (E2 : position_lf (a ++ LF :: c) = Some (length a)).
        { apply IH. exists a, c. repeat split; auto. }
        rewrite E2. simpl. congruence.
Qed.

Lemma position_lf_line : forall l i,
  position_lf l = Some i ->
  exists a r, is_line a /\ l = a ++ r /\ length a = S i.
Proof.
  intros l i H. apply position_lf_some in H as [a [b [-> [Hl Hn]]]].
  exists (a ++ [LF]), b. repeat split.
  - exists a. auto.
  - now rewrite <- app_assoc.
  - rewrite app_length. simpl. lia.
Qed.

Lemma position_lf_app : forall l x i, position_lf l = Some i -> position_lf (l ++ x) = Some i.
Proof.
  intros l x i H. apply position_lf_some in H as [a [b [-> [Hl Hn]]]].
  apply position_lf_some. exists a, (b ++ x). rewrite <- app_assoc. auto.
Qed.

Lemma position_lf_skip : forall k l,
  k <= length l -> ~ In LF (firstn k l) ->
  position_lf l = option_map (Nat.add k) (position_lf (skipn k l)).
Proof.
  induction k as [|k IH]; intros l Hk Hn.
  - simpl. destruct (position_lf l); reflexivity.
  - destruct l as [|b l]; [simpl in *; lia|]. simpl in *.
    destruct (is_lf b) eqn:E; [apply is_lf_true in E; subst; exfalso; auto|].
    rewrite (IH l) by (auto; lia). destruct (position_lf (skipn k l)); reflexivity.
Qed.

Lemma find_crlf_spec : forall w k relaxed,
  k <= length w -> ~ In LF (firstn k w) ->
  find_crlf w k relaxed =
  Val (match position_lf w with
       | None => None
       | Some i => Some (i, negb relaxed && negb (ends_crlfb (firstn (S i) w)))
       end).
Proof.
  intros w k relaxed Hk Hn. unfold find_crlf, slice.
  rewrite (proj2 (Nat.leb_le k (length w)) Hk), Nat.leb_refl. cbn [andb bind].
  rewrite firstn_all2 by (rewrite skipn_length; lia).
  rewrite (position_lf_skip k w Hk Hn).
  destruct (position_lf (skipn k w)) as [j|] eqn:E; cbn [option_map]; [|reflexivity].
  assert (E2 : position_lf w = Some (k + j)).
  { rewrite (position_lf_skip k w Hk Hn), E. reflexivity. }
  apply position_lf_some in E2 as [a [b [-> [Hl Ha]]]].
  rewrite <- Hl.
  replace (firstn (S (length a)) (a ++ LF :: b)) with (a ++ [LF]).
  2:{ replace (a ++ LF :: b) with ((a ++ [LF]) ++ b) by now rewrite <- app_assoc.
      replace (S (length a)) with (length (a ++ [LF])) by (rewrite app_length; simpl; lia).
      now rewrite firstn_app_exact. }
  unfold ends_crlfb. rewrite rev_app_distr. simpl.
  destruct (rev a) as [|x ra] eqn:Er.
  - apply (f_equal (@rev byte)) in Er. rewrite rev_involutive in Er. simpl in Er. subst a.
    simpl. destruct relaxed; reflexivity.
  - apply (f_equal (@rev byte)) in Er. rewrite rev_involutive in Er. simpl in Er.
    subst a. rewrite app_length. simpl.
    replace (length (rev ra) + 1 - 1) with (length (rev ra)) by lia.
    rewrite <- app_assoc. simpl.
    rewrite nth_error_app2 by lia. rewrite Nat.sub_diag. simpl. reflexivity.
Qed.

(** ** The readable part of the buffer *)

Definition fits (mx : option N) (n : nat) : Prop :=
  match mx with None => True | Some m => (N.of_nat n <= m)%N end.

Definition limit (mx : option N) (n : nat) : bool :=
  match mx with None => false | Some m => N.eqb (N.of_nat n) m end.

(** The readable bytes after the already seen bytes [p]. *)
Definition view (mx : option N) (p u : bytes) : bytes :=
  skipn (length p) (within mx (p ++ u)).

Lemma within_length : forall s, length (within (rs_max s) (rs_buf s)) = rs_max_readable s.
Proof.
  intro s. unfold within, rs_max_readable. destruct (rs_max s) as [m|]; [|reflexivity].
  destruct (N.leb _ m) eqn:E; [reflexivity|].
  rewrite firstn_length. lia.
Qed.

Lemma within_view : forall mx p u, fits mx (length p) -> within mx (p ++ u) = p ++ view mx p u.
Proof.
  intros mx p u H. unfold view, within. destruct mx as [m|].
  - destruct (N.leb _ m) eqn:E.
    + now rewrite skipn_app_exact.
    + simpl in H. rewrite firstn_app.
      rewrite firstn_all2 by lia. now rewrite skipn_app_exact.
  - now rewrite skipn_app_exact.
Qed.

Lemma view_prefix : forall mx p u, fits mx (length p) ->
  exists r, u = view mx p u ++ r /\
            (r = [] \/ limit mx (length p + length (view mx p u)) = true).
Proof.
  intros mx p u H. unfold view, within, limit. destruct mx as [m|].
  - destruct (N.leb _ m) eqn:E.
    + rewrite skipn_app_exact. exists []. rewrite app_nil_r. auto.
    + simpl in H. rewrite firstn_app. rewrite firstn_all2 by lia.
      rewrite skipn_app_exact. exists (skipn (N.to_nat m - length p) u).
      rewrite firstn_skipn. split; [reflexivity|]. right.
      rewrite app_length in E. rewrite firstn_length. lia.
  - rewrite skipn_app_exact. exists []. rewrite app_nil_r. auto.
Qed.

Lemma view_fits : forall mx p u, fits mx (length p) ->
  fits mx (length p + length (view mx p u)).
Proof.
  intros mx p u H. unfold fits in *. destruct mx as [m|]; [|exact I].
  rewrite <- app_length, <- within_view by exact H.
  unfold within. destruct (N.leb _ m) eqn:E; [lia|]. rewrite firstn_length. lia.
Qed.

Lemma view_not_limit : forall mx p u, fits mx (length p) ->
  limit mx (length p + length (view mx p u)) = false -> view mx p u = u.
Proof.
  intros mx p u H Hl. destruct (view_prefix mx p u H) as [r [Hu [->|Hr]]].
  - now rewrite app_nil_r in Hu.
  - congruence.
Qed.

Lemma view_app : forall mx p u x, fits mx (length p) ->
  exists y, view mx p (u ++ x) = view mx p u ++ y /\
            (limit mx (length p + length (view mx p u)) = true -> y = []).
Proof.
  intros mx p u x H. unfold view, within, limit. destruct mx as [m|].
  2:{ rewrite !skipn_app_exact. exists x. split; [reflexivity|discriminate]. }
  simpl in H.
  destruct (N.leb (N.of_nat (length (p ++ u ++ x))) m) eqn:E1.
  - rewrite !app_length in E1.
    replace (N.leb (N.of_nat (length (p ++ u))) m) with true
      by (symmetry; rewrite app_length; apply N.leb_le; lia).
    rewrite !skipn_app_exact. exists x. split; [reflexivity|].
    intro Hl. destruct x as [|b x]; [reflexivity|]. simpl in E1. lia.
  - assert (Hfp : forall y, firstn (N.to_nat m) (p ++ y)
                            = p ++ firstn (N.to_nat m - length p) y).
    { intro y. rewrite firstn_app. now rewrite firstn_all2 by lia. }
    rewrite !Hfp, skipn_app_exact, firstn_app.
    destruct (N.leb (N.of_nat (length (p ++ u))) m) eqn:E2; rewrite app_length in E2;
      rewrite skipn_app_exact.
    + rewrite firstn_all2 by lia. eexists. split; [reflexivity|].
      intro Hl. replace (N.to_nat m - length p - length u) with 0 by lia. reflexivity.
    + replace (N.to_nat m - length p - length u) with 0 by lia.
      exists []. split; auto.
Qed.

Lemma view_k : forall mx p u k, fits mx (length p) ->
  k <= length u -> fits mx (length p + k) -> ~ In LF (firstn k u) ->
  k <= length (view mx p u) /\ ~ In LF (firstn k (view mx p u)).
Proof.
  intros mx p u k Hp Hk Hf Hn.
  destruct (view_prefix mx p u Hp) as [r [Hu Hr]].
  assert (Hlen : k <= length (view mx p u)).
  { destruct Hr as [->|Hr].
    - rewrite app_nil_r in Hu. rewrite <- Hu. exact Hk.
    - unfold limit in Hr. unfold fits in Hf. destruct mx as [m|]; [|discriminate]. lia. }
  split; [exact Hlen|].
  intro Hin. apply Hn. rewrite Hu. rewrite firstn_app_l by exact Hlen. exact Hin.
Qed.

(** ** Equations for the reader *)

(** Verdict on a line [l] that completes [p ++ l]. *)
Definition line_result {M L} (dec : bytes -> dec_result M L) (relaxed : bool) (p l : bytes)
  : rcv M L :=
  if negb relaxed && negb (ends_crlfb l) then RcvBareLf
  else match dec (p ++ l) with
       | DecOk [] m => RcvMsg m
       | DecOk (_ :: _) _ => RcvPanic
       | DecLit i => RcvLit i
       | DecFailed | DecIncomplete => RcvMalformed
       end.

Lemma slice_ok : forall {A} (a b : list A), slice (length a) (length (a ++ b)) (a ++ b) = Val b.
Proof.
  intros A a b. unfold slice. rewrite app_length.
  replace (length a <=? length a + length b) with true
    by (symmetry; apply Nat.leb_le; lia).
  rewrite Nat.leb_refl. simpl. rewrite skipn_app_exact.
  replace (length a + length b - length a) with (length b) by lia.
  now rewrite firstn_all.
Qed.

Lemma slice_app : forall {A} (a b r : list A),
  slice (length a) (length (a ++ b)) (a ++ b ++ r) = Val b.
Proof.
  intros A a b r. unfold slice. rewrite !app_length.
  replace (length a <=? length a + length b) with true
    by (symmetry; apply Nat.leb_le; lia).
  replace (length a + length b <=? length a + (length b + length r)) with true
    by (symmetry; apply Nat.leb_le; lia).
  simpl. rewrite skipn_app_exact.
  replace (length a + length b - length a) with (length b) by lia.
  now rewrite firstn_app_exact.
Qed.

Lemma progress_line_eq : forall {M L} (dec : bytes -> dec_result M L) s p u k,
  rs_buf s = p ++ u -> rs_seen s = length p -> fits (rs_max s) (length p) ->
  k <= length u -> fits (rs_max s) (length p + k) -> ~ In LF (firstn k u) ->
  progress_line dec s k =
  match position_lf (view (rs_max s) p u) with
  | None =>
      if limit (rs_max s) (length p + length (view (rs_max s) p u))
      then (RState (rs_relaxed s) (rs_max s) (NfLine (length u))
                   (length p + length (view (rs_max s) p u)) (p ++ u), RcvTooLong)
      else (RState (rs_relaxed s) (rs_max s) (NfLine (length u)) (length p) (p ++ u),
            RcvNeedMore)
  | Some i =>
      (RState (rs_relaxed s) (rs_max s) (NfLine 0) (length p + S i) (p ++ u),
       line_result dec (rs_relaxed s) p (firstn (S i) (view (rs_max s) p u)))
  end.
Proof.
  intros M L dec s p u k Hb Hs Hf Hk Hfk Hn.
  destruct (view_k _ _ _ _ Hf Hk Hfk Hn) as [Hk' Hn'].
  destruct (view_prefix _ p u Hf) as [r [Hu Hr]].
  unfold progress_line.
  assert (Hmr : rs_max_readable s = length (p ++ view (rs_max s) p u)).
  { rewrite <- within_length, Hb. now rewrite within_view. }
  rewrite Hmr, Hs, Hb. rewrite Hu at 2. rewrite slice_app.
  rewrite find_crlf_spec by assumption.
  destruct (position_lf (view (rs_max s) p u)) as [i|] eqn:E.
  - assert (Hsl : slice 0 (length p + (i + 1)) (p ++ u)
                  = Val (p ++ firstn (S i) (view (rs_max s) p u))).
    { apply position_lf_line in E as [a [t [_ [Hv Hl]]]].
      rewrite Hv, <- Hl, firstn_app_exact.
      rewrite Hu, Hv. replace (p ++ (a ++ t) ++ r) with ((p ++ a) ++ t ++ r)
        by now rewrite <- !app_assoc.
      replace (length p + (i + 1)) with (length (p ++ a)) by (rewrite app_length; lia).
      apply (slice_app (@nil byte) (p ++ a) (t ++ r)). }
    unfold line_result.
    cbn [rs_set_frag rs_set_seen rs_relaxed rs_max rs_seen rs_buf].
    rewrite Hb, Hsl.
    replace (length p + (i + 1)) with (length p + S i) by lia.
    destruct (negb (rs_relaxed s) && negb (ends_crlfb (firstn (S i) (view (rs_max s) p u))));
      unfold rs_set_frag, rs_set_seen;
      cbn [rs_relaxed rs_max rs_seen rs_buf rs_frag]; rewrite ?Hb;
      [reflexivity|].
    destruct (dec _) as [[|]| | |]; reflexivity.
  - unfold rs_at_limit. fold (limit (rs_max s) (length (p ++ view (rs_max s) p u))).
    rewrite !app_length.
    replace (length p + length u - length p) with (length u) by lia.
    destruct (limit _ _); unfold rs_set_frag, rs_set_seen;
      cbn [rs_relaxed rs_max rs_seen rs_buf rs_frag]; rewrite ?Hb, ?Hs; reflexivity.
Qed.

Lemma progress_literal_eq : forall {M L} s p u n,
  rs_buf s = p ++ u -> rs_seen s = length p -> fits (rs_max s) (length p) ->
  @progress_literal M L s n =
  if N.ltb (N.of_nat (length (view (rs_max s) p u))) n then
    if limit (rs_max s) (length p + length (view (rs_max s) p u))
    then (RState (rs_relaxed s) (rs_max s) (rs_frag s)
                 (length p + length (view (rs_max s) p u)) (p ++ u), Some RcvTooLong)
    else (s, Some RcvNeedMore)
  else (RState (rs_relaxed s) (rs_max s) (NfLine 0) (length p + N.to_nat n) (p ++ u), None).
Proof.
  intros M L s p u n Hb Hs Hf. unfold progress_literal.
  assert (Hmr : rs_max_readable s = length p + length (view (rs_max s) p u)).
  { rewrite <- within_length, Hb, within_view by assumption. apply app_length. }
  rewrite Hmr, Hs.
  replace (length p + length (view (rs_max s) p u) <? length p) with false
    by (symmetry; apply Nat.ltb_ge; lia).
  replace (length p + length (view (rs_max s) p u) - length p)
    with (length (view (rs_max s) p u)) by lia.
  destruct (N.ltb _ n).
  - unfold rs_at_limit. fold (limit (rs_max s) (length p + length (view (rs_max s) p u))).
    destruct (limit _ _); [|reflexivity].
    unfold rs_set_seen. now rewrite Hb.
  - unfold rs_set_frag, rs_set_seen. cbn. now rewrite Hb.
Qed.

(** ** The invariant of the reader and its next step *)

(** [p]: bytes already seen, [u]: bytes not yet seen. *)
Definition rinv (s : rstate) (p u : bytes) : Prop :=
  rs_buf s = p ++ u /\ rs_seen s = length p /\ fits (rs_max s) (length p) /\
  match rs_frag s with
  | NfLine k => k <= length u /\ fits (rs_max s) (length p + k) /\ ~ In LF (firstn k u)
  | NfLiteral _ => True
  end.

(** The next fragment ends with a line. *)
Inductive frag_line : next_fragment -> bytes -> bytes -> Prop :=
| fl_line : forall k l, is_line l -> frag_line (NfLine k) l l
| fl_lit : forall n d l, N.of_nat (length d) = n -> is_line l ->
    frag_line (NfLiteral n) (d ++ l) l.

Definition no_line (f : next_fragment) (v : bytes) : Prop :=
  forall w l r, frag_line f w l -> v <> w ++ r.

Definition line_verdict {M L} (dec : bytes -> dec_result M L) (relaxed : bool) (w l : bytes)
  : rcv M L :=
  if negb relaxed && negb (ends_crlfb l) then RcvBareLf
  else match dec w with
       | DecOk [] m => RcvMsg m
       | DecOk (_ :: _) _ => RcvPanic
       | DecLit i => RcvLit i
       | DecFailed | DecIncomplete => RcvMalformed
       end.

Definition rafter (s : rstate) (q u : bytes) : rstate :=
  RState (rs_relaxed s) (rs_max s) (NfLine 0) (length q) (q ++ u).

Lemma fits_le : forall mx a b, a <= b -> fits mx b -> fits mx a.
Proof. intros [m|] a b H1 H2; simpl in *; [lia|exact I]. Qed.

Lemma no_lf_no_line : forall k v, ~ In LF v -> no_line (NfLine k) v.
Proof.
  intros k v Hn w l r H E. inversion H; subst. apply Hn.
  apply in_or_app. left. now apply is_line_In.
Qed.

Lemma rs_next_line : forall {M L} (dec : bytes -> dec_result M L) s p u k,
  rs_buf s = p ++ u -> rs_seen s = length p -> fits (rs_max s) (length p) ->
  k <= length u -> fits (rs_max s) (length p + k) -> ~ In LF (firstn k u) ->
  (exists l u', is_line l /\ u = l ++ u' /\ fits (rs_max s) (length (p ++ l)) /\
     progress_line dec s k =
       (rafter s (p ++ l) u', line_verdict dec (rs_relaxed s) (p ++ l) l))
  \/
  (~ In LF u /\ view (rs_max s) p u = u /\ limit (rs_max s) (length p + length u) = false /\
   progress_line dec s k =
     (RState (rs_relaxed s) (rs_max s) (NfLine (length u)) (length p) (p ++ u), RcvNeedMore))
  \/
  (~ In LF (view (rs_max s) p u) /\
   limit (rs_max s) (length p + length (view (rs_max s) p u)) = true /\
   progress_line dec s k =
     (RState (rs_relaxed s) (rs_max s) (NfLine (length u))
             (length p + length (view (rs_max s) p u)) (p ++ u), RcvTooLong)).
Proof.
  intros M L dec s p u k Hb Hs Hf Hk Hfk Hn.
  pose proof (progress_line_eq dec s p u k Hb Hs Hf Hk Hfk Hn) as E.
  destruct (position_lf (view (rs_max s) p u)) as [i|] eqn:Ei.
  - left. apply position_lf_line in Ei as [l [t [Hline [Hv Hl]]]].
    destruct (view_prefix _ p u Hf) as [r [Hu _]].
    exists l, (t ++ r). repeat split; auto.
    + rewrite Hu, Hv. now rewrite <- app_assoc.
    + eapply fits_le; [|apply (view_fits _ p u Hf)]. rewrite Hv, !app_length. lia.
    + rewrite E, Hv, <- Hl, firstn_app_exact.
      unfold rafter. f_equal.
      replace (p ++ u) with ((p ++ l) ++ t ++ r)
        by (rewrite Hu, Hv; now rewrite <- !app_assoc).
      now rewrite app_length.
  - right. apply position_lf_none in Ei.
    destruct (limit _ _) eqn:El.
    + right. repeat split; auto.
    + left. assert (Hv : view (rs_max s) p u = u) by (apply view_not_limit; auto).
      rewrite Hv in *. repeat split; auto.
Qed.

Lemma rs_next_cases : forall {M L} (dec : bytes -> dec_result M L) s p u,
  rinv s p u ->
  (exists w l u', u = w ++ u' /\ frag_line (rs_frag s) w l /\
     fits (rs_max s) (length (p ++ w)) /\
     rs_next dec s = (rafter s (p ++ w) u', line_verdict dec (rs_relaxed s) (p ++ w) l))
  \/
  (no_line (rs_frag s) u /\ within (rs_max s) (p ++ u) = p ++ u /\
   limit (rs_max s) (length (p ++ u)) = false /\
   exists d u' f', u = d ++ u' /\
     rs_next dec s =
       (RState (rs_relaxed s) (rs_max s) f' (length (p ++ d)) (p ++ u), RcvNeedMore) /\
     rinv (RState (rs_relaxed s) (rs_max s) f' (length (p ++ d)) (p ++ u)) (p ++ d) u' /\
     ((d = [] /\ (f' = rs_frag s \/ exists k k', rs_frag s = NfLine k /\ f' = NfLine k'))
      \/ (exists k, rs_frag s = NfLiteral (N.of_nat (length d)) /\ f' = NfLine k)))
  \/
  (no_line (rs_frag s) (view (rs_max s) p u) /\
   limit (rs_max s) (length (within (rs_max s) (p ++ u))) = true /\
   exists f', rs_next dec s =
     (RState (rs_relaxed s) (rs_max s) f' (length (within (rs_max s) (p ++ u))) (p ++ u),
      RcvTooLong)).
Proof.
  intros M L dec s p u (Hb & Hs & Hf & Hfrag). unfold rs_next.
  destruct (rs_frag s) as [k|n] eqn:Efr.
  - destruct Hfrag as (Hk & Hfk & Hn).
    destruct (rs_next_line dec s p u k Hb Hs Hf Hk Hfk Hn)
      as [(l & u' & Hline & Hu & Hfl & E)|[(Hno & Hv & Hlim & E)|(Hno & Hlim & E)]].
    + left. exists l, l, u'. repeat split; auto. now constructor.
    + right. left. repeat split.
      * now apply no_lf_no_line.
      * rewrite within_view by exact Hf. now rewrite Hv.
      * now rewrite app_length.
      * exists [], u, (NfLine (length u)). rewrite app_nil_r. repeat split; auto.
        -- rewrite <- Hv. apply (view_fits _ p u Hf).
        -- intro Hin. apply Hno. eapply In_firstn; eauto.
        -- left. split; [reflexivity|]. right. eauto.
    + right. right. repeat split.
      * now apply no_lf_no_line.
      * rewrite within_view by exact Hf. now rewrite app_length.
      * exists (NfLine (length u)). rewrite within_view by exact Hf.
        rewrite app_length. exact E.
  - rewrite (progress_literal_eq s p u n Hb Hs Hf).
    destruct (N.ltb (N.of_nat (length (view (rs_max s) p u))) n) eqn:Elt.
    + assert (Hno : no_line (NfLiteral n) (view (rs_max s) p u)).
      { intros w l r H E. inversion H; subst. rewrite E, !app_length in Elt. lia. }
      destruct (limit _ _) eqn:Elim.
      * right. right. repeat split; auto.
        -- rewrite within_view by exact Hf. now rewrite app_length.
        -- exists (NfLiteral n). rewrite within_view by exact Hf. now rewrite app_length, Efr.
      * right. left. assert (Hv : view (rs_max s) p u = u) by (apply view_not_limit; auto).
        rewrite Hv in *. repeat split; auto.
        -- rewrite within_view by exact Hf. now rewrite Hv.
        -- now rewrite app_length.
        -- assert (Es : s = RState (rs_relaxed s) (rs_max s) (NfLiteral n) (length p) (p ++ u)).
           { destruct s; simpl in *. congruence. }
           exists [], u, (NfLiteral n). rewrite app_nil_r. repeat split; auto.
           congruence.
    + (* the literal is complete *)
      set (d := firstn (N.to_nat n) (view (rs_max s) p u)).
      assert (Hd : length d = N.to_nat n).
      { unfold d. rewrite firstn_length. lia. }
      destruct (view_prefix _ p u Hf) as [r [Hu _]].
      set (u1 := skipn (N.to_nat n) (view (rs_max s) p u) ++ r).
      assert (Hu1 : u = d ++ u1).
      { unfold d, u1. rewrite app_assoc, firstn_skipn. exact Hu. }
      assert (Hf1 : fits (rs_max s) (length (p ++ d))).
      { eapply fits_le; [|apply (view_fits _ p u Hf)]. rewrite app_length.
        unfold d. rewrite firstn_length. lia. }
      clearbody u1 d.
      set (s1 := RState (rs_relaxed s) (rs_max s) (NfLine 0) (length p + N.to_nat n) (p ++ u)).
      change (rs_frag s1) with (NfLine 0). cbv beta iota.
      destruct (rs_next_line dec s1 (p ++ d) u1 0)
        as [(l & u' & Hline & Hu' & Hfl & E)|[(Hno & Hv & Hlim & E)|(Hno & Hlim & E)]];
        try (simpl; auto; lia).
      * simpl. rewrite Hu1. now rewrite app_assoc.
      * simpl. rewrite app_length, Hd. reflexivity.
      * simpl. rewrite Nat.add_0_r. exact Hf1.
      * left. exists (d ++ l), l, u'. repeat split.
        -- rewrite Hu1, Hu'. now rewrite app_assoc.
        -- constructor; [lia|assumption].
        -- rewrite app_assoc. exact Hfl.
        -- rewrite E. now rewrite !app_assoc.
      * right. left.
        change (rs_max s1) with (rs_max s) in *.
        assert (Hw : within (rs_max s) (p ++ u) = p ++ u).
        { rewrite Hu1, app_assoc. rewrite within_view by exact Hf1. now rewrite Hv. }
        repeat split.
        -- intros w l t H Eq. inversion H as [|n0 d0 l0 Hd0 Hl0]; subst w l n0.
           rewrite Hu1, <- app_assoc in Eq. apply app_inv_length in Eq as [_ Eq]; [|lia].
           apply Hno. rewrite Eq. apply in_or_app. left. now apply is_line_In.
        -- exact Hw.
        -- rewrite Hu1, app_assoc, app_length. exact Hlim.
        -- exists d, u1, (NfLine (length u1)). repeat split; auto.
           ++ rewrite E. unfold s1. cbn [rs_relaxed rs_max].
              rewrite Hu1, <- app_assoc. reflexivity.
           ++ cbn [rs_buf]. now rewrite Hu1, app_assoc.
           ++ cbn [rs_max]. rewrite <- Hv. apply (view_fits _ (p ++ d) u1 Hf1).
           ++ intro Hin. apply Hno. eapply In_firstn; eauto.
           ++ right. exists (length u1). split; [|reflexivity]. f_equal. lia.
      * right. right.
        change (rs_max s1) with (rs_max s) in *.
        assert (Hw : within (rs_max s) (p ++ u) = (p ++ d) ++ view (rs_max s) (p ++ d) u1).
        { rewrite Hu1, app_assoc. now rewrite within_view by exact Hf1. }
        repeat split.
        -- intros w l t H Eq. inversion H as [|n0 d0 l0 Hd0 Hl0]; subst w l n0.
           assert (E2 : p ++ view (rs_max s) p u = p ++ d ++ view (rs_max s) (p ++ d) u1).
           { rewrite <- within_view by exact Hf. rewrite Hw. now rewrite app_assoc. }
           apply app_inv_head in E2. rewrite E2, <- app_assoc in Eq.
           apply app_inv_length in Eq as [_ Eq]; [|lia].
           apply Hno. rewrite Eq. apply in_or_app. left. now apply is_line_In.
        -- rewrite Hw, app_length. exact Hlim.
        -- exists (NfLine (length u1)). rewrite E, Hw. unfold s1.
           cbn [rs_relaxed rs_max]. rewrite (app_length (p ++ d)).
           replace ((p ++ d) ++ u1) with (p ++ u) by (rewrite Hu1; now rewrite app_assoc).
           reflexivity.
Qed.

Lemma frag_line_unique : forall f w1 l1 r1 w2 l2 r2,
  frag_line f w1 l1 -> frag_line f w2 l2 -> w1 ++ r1 = w2 ++ r2 ->
  w1 = w2 /\ l1 = l2 /\ r1 = r2.
Proof.
  intros f w1 l1 r1 w2 l2 r2 H1 H2 E.
  destruct H1 as [k l Hl|n d l Hd Hl]; inversion H2 as [k' l' Hl'|n' d' l' Hd' Hl']; subst.
  - destruct (is_line_unique _ _ _ _ Hl Hl' E) as [-> ->]. auto.
  - rewrite <- !app_assoc in E. apply app_inv_length in E as [-> E]; [|lia].
    destruct (is_line_unique _ _ _ _ Hl Hl' E) as [-> ->]. auto.
Qed.

(** ** Connection to the specification *)

Section Sem.
  Context {M L : Type}.
  Variable dec : bytes -> dec_result M L.
  Variable relaxed : bool.
  Variable accept : L -> option N.

  Notation scan := (scan dec relaxed accept).
  Notation verdict := (verdict dec relaxed accept).
  Notation line_ok := (line_ok relaxed).

  Lemma line_ok_dec : forall l, {line_ok l} + {relaxed = false /\ ~ ends_crlf l}.
  Proof.
    intro l. unfold SpecFraming.line_ok. destruct relaxed.
    - left. auto.
    - destruct (ends_crlfb l) eqn:E.
      + left. right. now apply ends_crlfb_spec.
      + right. split; [reflexivity|]. now apply ends_crlfb_false.
  Defined.

  Lemma verdict_det : forall w l o1 o2, verdict w l o1 -> verdict w l o2 -> o1 = o2.
  Proof.
    intros w l o1 o2 H1 H2.
    assert (C : line_ok l -> relaxed = false -> ~ ends_crlf l -> False).
    { intros [Hr|Hr] ? ?; [congruence|contradiction]. }
    destruct H1; inversion H2; subst; try congruence; exfalso; eauto.
  Qed.

  Lemma verdict_not_lit : forall w l o i n,
    verdict w l o -> line_ok l -> dec w = DecLit i -> accept i = Some n -> False.
  Proof.
    intros w l o i n H Hok Hd Ha. unfold SpecFraming.line_ok in *.
    destruct H; try congruence.
    destruct Hok; [congruence|contradiction].
  Qed.

  (** A byte stream has at most one first message. *)
  Lemma scan_det : forall p w1 ls1 o1, scan p w1 ls1 o1 ->
    forall w2 ls2 o2 r1 r2, scan p w2 ls2 o2 -> w1 ++ r1 = w2 ++ r2 ->
    w1 = w2 /\ ls1 = ls2 /\ o1 = o2.
  Proof.
    induction 1 as [p l o Hl Hv | p l i n d w ls o Hl Hok Hd Ha Hn Hs IH];
      intros w2 ls2 o2 r1 r2 H2 E.
    - inversion H2 as [p' l' o' Hl' Hv' | p' l' i' n' d' w' ls' o' Hl' Hok' Hd' Ha' Hn' Hs'];
        subst.
      + destruct (is_line_unique _ _ _ _ Hl Hl' E) as [-> _].
        repeat split. eapply verdict_det; eauto.
      + rewrite <- app_assoc in E.
        destruct (is_line_unique _ _ _ _ Hl Hl' E) as [-> _].
        exfalso. eapply verdict_not_lit; eauto.
    - inversion H2 as [p' l' o' Hl' Hv' | p' l' i' n' d' w' ls' o' Hl' Hok' Hd' Ha' Hn' Hs'];
        subst; rewrite <- ?app_assoc in E.
      + destruct (is_line_unique _ _ _ _ Hl Hl' E) as [-> _].
        exfalso. eapply verdict_not_lit; eauto.
      + rewrite <- ?app_assoc in E.
        destruct (is_line_unique _ _ _ _ Hl Hl' E) as [-> E1].
        assert (i = i') by congruence. subst i'.
        assert (HL : length d = length d').
        { apply Nat2N.inj. congruence. }
        apply app_inv_length in E1 as [-> E1]; [|exact HL].
        destruct (IH _ _ _ _ _ Hs' E1) as (-> & -> & ->). auto.
  Qed.

  Lemma scan_nonempty : forall p w ls o, scan p w ls o -> 1 <= length w.
  Proof.
    intros p w ls o H.
    destruct H as [p l o Hl _|p l i n d w ls o Hl _ _ _ _ _];
      pose proof (is_line_nonempty _ Hl); rewrite ?app_length; lia.
  Qed.

  (** Continuation of a message from the state of the reader. *)
  Definition scan_from (f : next_fragment) (p w : bytes) (ls : list L) (o : outcome M L)
    : Prop :=
    match f with
    | NfLine _ => scan p w ls o
    | NfLiteral n =>
        exists d w2, w = d ++ w2 /\ N.of_nat (length d) = n /\ scan (p ++ d) w2 ls o
    end.

  Lemma scan_from_first : forall f p w ls o, scan_from f p w ls o ->
    exists w1 l r, frag_line f w1 l /\ w = w1 ++ r.
  Proof.
    intros f p w ls o H. destruct f as [k|n]; simpl in H.
    - destruct H as [p l o Hl _|p l i n d w ls o Hl _ _ _ _ _].
      + exists l, l, []. rewrite app_nil_r. split; [now constructor|reflexivity].
      + exists l, l, (d ++ w). split; [now constructor|reflexivity].
    - destruct H as (d & w2 & -> & Hd & H).
      destruct H as [p' l o Hl _|p' l i n' d' w ls o Hl _ _ _ _ _].
      + exists (d ++ l), l, []. rewrite app_nil_r. split; [now constructor|reflexivity].
      + exists (d ++ l), l, (d' ++ w). rewrite <- app_assoc.
        split; [now constructor|reflexivity].
  Qed.

  Lemma scan_from_end : forall f p w l o,
    frag_line f w l -> verdict (p ++ w) l o -> scan_from f p w [] o.
  Proof.
    intros f p w l o H V. inversion H; subst; simpl.
    - now constructor.
    - exists d, l. repeat split. constructor; [assumption|]. now rewrite <- app_assoc.
  Qed.

  Lemma scan_from_lit : forall f p w l i n w2 ls o,
    frag_line f w l -> line_ok l -> dec (p ++ w) = DecLit i -> accept i = Some n ->
    scan_from (NfLiteral n) (p ++ w) w2 ls o ->
    scan_from f p (w ++ w2) (i :: ls) o.
  Proof.
    intros f p w l i n w2 ls o H Hok Hd Ha (d2 & w3 & -> & Hn & Hs).
    inversion H; subst; simpl.
    - eapply scan_lit; eauto. now rewrite <- app_assoc in Hs.
    - exists d, (l ++ d2 ++ w3). rewrite <- app_assoc. repeat split.
      eapply scan_lit; eauto.
      + now rewrite <- app_assoc.
      + rewrite <- !app_assoc in *. exact Hs.
  Qed.

  Lemma scan_from_lit_inv : forall f p w l i n w' ls o r x,
    frag_line f w l -> line_ok l -> dec (p ++ w) = DecLit i -> accept i = Some n ->
    scan_from f p w' ls o -> w' ++ r = w ++ x ->
    exists w2 ls2, w' = w ++ w2 /\ ls = i :: ls2 /\ scan_from (NfLiteral n) (p ++ w) w2 ls2 o.
  Proof.
    intros f p w l i n w' ls o r x H Hok Hd Ha Hs E.
    inversion H as [k0 l0 Hl0|n0 d0 l0 Hd0 Hl0]; subst; simpl in Hs.
    - inversion Hs as [p' l' o' Hl' Hv' | p' l' i' n' d' w2 ls' o' Hl' Hok' Hd' Ha' Hn' Hs'];
        subst.
      + destruct (is_line_unique _ _ _ _ Hl' Hl0 E) as [-> _].
        exfalso. eapply verdict_not_lit; eauto.
      + rewrite <- app_assoc in E.
        destruct (is_line_unique _ _ _ _ Hl' Hl0 E) as [-> _].
        assert (i' = i) by congruence. subst i'.
        exists (d' ++ w2), ls'. repeat split. simpl. exists d', w2. repeat split.
        * congruence.
        * now rewrite <- app_assoc.
    - destruct Hs as (d1 & w1 & -> & Hn1 & Hs). rewrite <- !app_assoc in E.
      apply app_inv_length in E as [-> E]; [|lia].
      inversion Hs as [p' l' o' Hl' Hv' | p' l' i' n' d' w2 ls' o' Hl' Hok' Hd' Ha' Hn' Hs'];
        subst.
      + destruct (is_line_unique _ _ _ _ Hl' Hl0 E) as [-> _].
        rewrite <- app_assoc in Hv'.
        exfalso. eapply verdict_not_lit; eauto.
      + rewrite <- app_assoc in E.
        destruct (is_line_unique _ _ _ _ Hl' Hl0 E) as [-> _].
        rewrite <- app_assoc in Hd'.
        assert (i' = i) by congruence. subst i'.
        exists (d' ++ w2), ls'. rewrite <- app_assoc. repeat split. simpl.
        exists d', w2. repeat split.
        * congruence.
        * rewrite <- !app_assoc in *. exact Hs'.
  Qed.

  (** [p] was read as part of a message in which the literals [ls0] were accepted. *)
  Definition sem_inv (p : bytes) (f : next_fragment) (ls0 : list L) : Prop :=
    (forall w ls o, scan_from f p w ls o -> framed dec relaxed accept (p ++ w) (ls0 ++ ls) o)
    /\
    (forall w' ls' o r x, framed dec relaxed accept w' ls' o -> w' ++ r = p ++ x ->
       exists w ls, w' = p ++ w /\ ls' = ls0 ++ ls /\ scan_from f p w ls o).

  Lemma sem_init : forall k, sem_inv [] (NfLine k) [].
  Proof.
    intro k. split.
    - intros w ls o H. exact H.
    - intros w' ls' o r x H E. exists w', ls'. auto.
  Qed.

  Lemma sem_done : forall p f ls0 w l o,
    sem_inv p f ls0 -> frag_line f w l -> verdict (p ++ w) l o ->
    framed dec relaxed accept (p ++ w) ls0 o.
  Proof.
    intros p f ls0 w l o [HA _] Hf Hv.
    rewrite <- (app_nil_r ls0). apply HA. eapply scan_from_end; eauto.
  Qed.

  Lemma sem_lit : forall p f ls0 w l i n,
    sem_inv p f ls0 -> frag_line f w l -> line_ok l -> dec (p ++ w) = DecLit i ->
    accept i = Some n -> sem_inv (p ++ w) (NfLiteral n) (ls0 ++ [i]).
  Proof.
    intros p f ls0 w l i n [HA HB] Hf Hok Hd Ha. split.
    - intros w2 ls o H. rewrite <- !app_assoc. simpl. apply HA.
      eapply scan_from_lit; eauto.
    - intros w' ls' o r x H E. rewrite <- app_assoc in E.
      destruct (HB _ _ _ _ _ H E) as (w1 & ls1 & -> & -> & Hs).
      rewrite <- app_assoc in E. apply app_inv_head in E.
      destruct (scan_from_lit_inv _ _ _ _ _ _ _ _ _ _ _ Hf Hok Hd Ha Hs E)
        as (w2 & ls2 & -> & -> & Hs2).
      exists w2, ls2. rewrite <- !app_assoc. auto.
  Qed.

  Lemma sem_line_k : forall p k k' ls0,
    sem_inv p (NfLine k) ls0 -> sem_inv p (NfLine k') ls0.
  Proof. intros p k k' ls0 H. exact H. Qed.

  Lemma sem_lit_read : forall p d k ls0,
    sem_inv p (NfLiteral (N.of_nat (length d))) ls0 -> sem_inv (p ++ d) (NfLine k) ls0.
  Proof.
    intros p d k ls0 [HA HB]. split.
    - intros w ls o H. rewrite <- app_assoc. apply HA. exists d, w. auto.
    - intros w' ls' o r x H E. rewrite <- app_assoc in E.
      destruct (HB _ _ _ _ _ H E) as (w1 & ls1 & -> & -> & d1 & w2 & -> & Hn & Hs).
      rewrite <- app_assoc in E. apply app_inv_head in E.
      rewrite <- app_assoc in E. apply app_inv_length in E as [-> E]; [|lia].
      exists w2, ls1. rewrite <- app_assoc. auto.
  Qed.

  Lemma sem_no_message : forall p f ls0 v,
    sem_inv p f ls0 -> no_line f v -> ~ has_message dec relaxed accept (p ++ v).
  Proof.
    intros p f ls0 v [_ HB] Hno (w' & r & ls' & o & E & H).
    symmetry in E. destruct (HB _ _ _ _ _ H E) as (w & ls & -> & -> & Hs).
    rewrite <- app_assoc in E. apply app_inv_head in E.
    destruct (scan_from_first _ _ _ _ _ Hs) as (w1 & l & r1 & Hf & ->).
    rewrite <- app_assoc in E. apply (Hno w1 l (r1 ++ r) Hf). now symmetry.
  Qed.

  Lemma line_verdict_cases : forall w l,
    match line_verdict dec relaxed w l with
    | RcvMsg m => verdict w l (OMsg m)
    | RcvMalformed => verdict w l OMalformed
    | RcvBareLf => verdict w l OBareLf
    | RcvLit i => line_ok l /\ dec w = DecLit i
    | RcvPanic => exists m, verdict w l (OTrailing m)
    | RcvNeedMore | RcvTooLong | RcvFuel => False
    end.
  Proof.
    intros w l. unfold line_verdict.
    destruct (negb relaxed && negb (ends_crlfb l)) eqn:E.
    - apply andb_true_iff in E as [E1 E2]. apply negb_true_iff in E1, E2.
      constructor; [assumption|]. now apply ends_crlfb_false.
    - assert (Hok : line_ok l).
      { apply andb_false_iff in E as [E|E]; apply negb_false_iff in E; [left|right]; auto.
        now apply ends_crlfb_spec. }
      destruct (dec w) as [[|b r] m|i| |] eqn:Ed; try (econstructor; eassumption); auto.
      exists m. econstructor; eassumption.
  Qed.
End Sem.

(** ** Adding input *)

Lemma rinv_add : forall s p u x, rinv s p u -> rinv (rs_enqueue_input s x) p (u ++ x).
Proof.
  intros s p u x (Hb & Hs & Hf & Hfr). repeat split; cbn [rs_enqueue_input rs_buf rs_seen rs_max rs_frag]; auto.
  - rewrite Hb. now rewrite <- app_assoc.
  - destruct (rs_frag s) as [k|n]; [|exact I]. destruct Hfr as (Hk & Hfk & Hn).
    repeat split; auto.
    + rewrite app_length. lia.
    + rewrite firstn_app_l by exact Hk. exact Hn.
Qed.

(** ** Finishing and discarding *)

Lemma rs_finish_ok : forall s, rs_seen s <= length (rs_buf s) ->
  rs_finish_message s =
  Val (RState (rs_relaxed s) (rs_max s) (NfLine 0) 0 (skipn (rs_seen s) (rs_buf s))).
Proof.
  intros s H. unfold rs_finish_message.
  now rewrite (proj2 (Nat.leb_le _ _) H).
Qed.

Lemma rs_discard_ok : forall s, rs_seen s <= length (rs_buf s) ->
  rs_discard_message s =
  Val (RState (rs_relaxed s) (rs_max s) (NfLine 0) 0 (skipn (rs_seen s) (rs_buf s)),
       firstn (rs_seen s) (rs_buf s)).
Proof.
  intros s H. unfold rs_discard_message, slice.
  rewrite (proj2 (Nat.leb_le _ _) H). simpl. rewrite rs_finish_ok by exact H.
  now rewrite Nat.sub_0_r.
Qed.

Lemma rinv_fresh : forall relaxed mx b, rinv (RState relaxed mx (NfLine 0) 0 b) [] b.
Proof.
  intros. repeat split; simpl; auto; try lia; destruct mx; simpl; auto; lia.
Qed.
