(** The toy codec honours the contracts that theorems assume of a codec. *)
From Coq Require Import List NArith Bool PeanoNat Lia ZifyBool ZifyNat ZifyN.
From Verif Require Import Base Types Codec Handle Client Server SpecFraming SpecClient SpecServer ToyCodec.
Import ListNotations.

Lemma cut_line_line : forall x r, is_line x -> cut_line (x ++ r) = Some (x, r).
Proof.
  intros x r (x0 & -> & Hn). induction x0 as [|b x0 IH]; [reflexivity|].
  cbn. destruct (is_lf b) eqn:E.
  - apply is_lf_true in E. subst. exfalso. apply Hn. now left.
  - rewrite <- app_comm_cons in IH || idtac.
    rewrite IH; [reflexivity|]. intro H. apply Hn. now right.
Qed.

(** Sequences of announcing lines with their literals. *)
Inductive aligned : bytes -> Prop :=
| al_nil : aligned []
| al_lit : forall x n m d p,
    is_line x -> announce x = Some (n, m) -> N.of_nat (length d) = n -> aligned p ->
    aligned (x ++ d ++ p).

Lemma aligned_app : forall p x n m d, aligned p -> is_line x -> announce x = Some (n, m) ->
  N.of_nat (length d) = n -> aligned (p ++ x ++ d).
Proof.
  intros p x n m d H Hx Ha Hn.
  induction H as [|x0 n0 m0 d0 p Hx0 Ha0 Hn0 Hp IH].
  - cbn. rewrite <- (app_nil_r d). eapply al_lit; eauto. constructor.
  - rewrite <- !app_assoc. eapply al_lit; eauto.
Qed.

Lemma is_line_nonempty : forall x, is_line x -> x <> [].
Proof. intros x (x0 & -> & _). destruct x0; discriminate. Qed.

Lemma walk_aligned : forall p, aligned p -> forall x fuel, is_line x -> length (p ++ x) < fuel ->
  match announce x with
  | None => exists fs, walk fuel (p ++ x) = WDone fs []
  | Some (n, m) => walk fuel (p ++ x) = WLit n m
  end.
Proof.
  intros p H. induction H as [|x0 n0 m0 d0 p Hx0 Ha0 Hn0 Hp IH]; intros x fuel Hx Hf.
  - destruct fuel as [|fuel]; [lia|]. cbn [app walk].
    pose proof (cut_line_line x [] Hx) as E. rewrite app_nil_r in E. rewrite E.
    destruct (announce x) as [[n m]|]; [reflexivity|eauto].
  - destruct fuel as [|fuel]; [lia|]. cbn [walk].
    replace ((x0 ++ d0 ++ p) ++ x) with (x0 ++ d0 ++ p ++ x) by now rewrite !app_assoc.
    rewrite cut_line_line by assumption. rewrite Ha0.
    destruct (d0 ++ p ++ x) as [|b r] eqn:E.
    { apply app_eq_nil in E as [_ E]. apply app_eq_nil in E as [_ E].
      now apply is_line_nonempty in Hx. }
    rewrite <- E. rewrite !app_length. rewrite !app_length in Hf.
    pose proof (is_line_nonempty x0 Hx0) as Hne. assert (0 < length x0) by (destruct x0; cbn; [congruence|lia]).
    rewrite (proj2 (N.leb_le _ _)) by lia.
    assert (Es : skipn (N.to_nat n0) (d0 ++ p ++ x) = p ++ x).
    { rewrite <- Hn0, Nat2N.id. rewrite skipn_app, skipn_all, Nat.sub_diag. reflexivity. }
    rewrite Es. specialize (IH x fuel Hx). rewrite app_length in IH. specialize (IH ltac:(lia)).
    destruct (announce x) as [[n m]|].
    + rewrite IH. reflexivity.
    + destruct IH as (fs & ->). eauto.
Qed.

Lemma walk_all_aligned : forall p x, aligned p -> is_line x ->
  match announce x with
  | None => exists fs, walk_all (p ++ x) = WDone fs []
  | Some (n, m) => walk_all (p ++ x) = WLit n m
  end.
Proof. intros p x Hp Hx. apply walk_aligned; auto. Qed.

Lemma toy_response_scan : forall relaxed p w ls o m,
  scan (dec_response toy) relaxed accept_any p w ls o -> aligned p -> o <> OTrailing m.
Proof.
  intros relaxed p w ls o m H.
  induction H as [p x o Hx V|p x i n d w ls o Hx Hok Hd Ha Hn _ IH]; intro Hp.
  - intro E. subst o. inversion V as [| | | | |b r m' Hl Hd].
    pose proof (walk_all_aligned p x Hp Hx) as W. cbn in Hd. unfold t_dec_response in Hd.
    destruct (announce x) as [[n k]|].
    + rewrite W in Hd. discriminate.
    + destruct W as (fs & W). rewrite W in Hd.
      destruct (parse_response _); discriminate.
  - apply IH. injection Ha as Ha. subst i.
    pose proof (walk_all_aligned p x Hp Hx) as W. cbn in Hd. unfold t_dec_response in Hd.
    destruct (announce x) as [[n0 k]|] eqn:En.
    + rewrite W in Hd. injection Hd as ->. eapply aligned_app; eauto.
    + destruct W as (fs & W). rewrite W in Hd. destruct (parse_response _); discriminate.
Qed.

Lemma toy_command_scan : forall relaxed accept p w ls o m,
  (forall i n, accept i = Some n -> n = cl_length i) ->
  scan (dec_command toy) relaxed accept p w ls o -> aligned p -> o <> OTrailing m.
Proof.
  intros relaxed accept p w ls o m Hacc H.
  induction H as [p x o Hx V|p x i n d w ls o Hx Hok Hd Ha Hn _ IH]; intro Hp.
  - intro E. subst o. inversion V as [| | | | |b r m' Hl Hd].
    pose proof (walk_all_aligned p x Hp Hx) as W. cbn in Hd. unfold t_dec_command in Hd.
    destruct (announce x) as [[n k]|].
    + rewrite W in Hd. destruct (split_sp _) as [[]|]; discriminate.
    + destruct W as (fs & W). rewrite W in Hd.
      destruct (split_sp _) as [[t b0]|]; [destruct (parse_body b0)|]; discriminate.
  - apply IH. apply Hacc in Ha. subst n.
    pose proof (walk_all_aligned p x Hp Hx) as W. cbn in Hd. unfold t_dec_command in Hd.
    destruct (announce x) as [[n0 k]|] eqn:En.
    + rewrite W in Hd. destruct (split_sp _) as [[]|]; [|discriminate].
      injection Hd as <-. cbn in Hn. eapply aligned_app; eauto.
    + destruct W as (fs & W). rewrite W in Hd.
      destruct (split_sp _) as [[t b0]|]; [destruct (parse_body b0)|]; discriminate.
Qed.

(** Decoders of single lines leave nothing over. *)
Lemma single_no_trailing : forall {M} (dec : bytes -> dec_result M Empty_set) relaxed w ls m,
  (forall x b r m, is_line x -> dec x <> DecOk (b :: r) m) ->
  ~ framed dec relaxed accept_none w ls (OTrailing m).
Proof.
  intros M dec relaxed w ls m Hdec H. unfold framed in H.
  inversion H as [p x o Hx V|p x i]; subst; [|destruct i].
  inversion V as [| | | | |b r m' Hl Hd]. now apply Hdec in Hd.
Qed.

Lemma toy_no_trailing : forall relaxed, no_trailing toy relaxed.
Proof.
  intro relaxed. split; intros raw ls m H.
  - revert H. apply single_no_trailing. intros x b r m' Hx Hd. cbn in Hd. unfold t_dec_greeting in Hd.
    pose proof (cut_line_line x [] Hx) as E. rewrite app_nil_r in E. rewrite E in Hd.
    destruct (strip _ (chomp x)) as [b0|]; [|discriminate].
    repeat (destruct (strip _ b0); [discriminate|]). discriminate.
  - eapply toy_response_scan; eauto. constructor.
Qed.

Lemma toy_single_lines : single_lines toy.
Proof.
  split; [|split].
  - intros [t [m ir| |p]] H; cbn; eauto. exfalso. apply H. exists p. reflexivity.
  - intros [d|]; cbn; eauto.
  - cbn. eauto.
Qed.

Lemma toy_sno_trailing : forall o, sno_trailing toy o.
Proof.
  intro o. split; [|split]; intros raw ls m H.
  - eapply toy_command_scan; eauto; [|constructor].
    intros i n. unfold cmd_accept. destruct (N.ltb _ _); congruence.
  - revert H. apply single_no_trailing. intros x b r m' Hx Hd. cbn in Hd. unfold t_dec_authdata in Hd.
    pose proof (cut_line_line x [] Hx) as E. rewrite app_nil_r in E. rewrite E in Hd.
    destruct (bytes_eqb _ _); discriminate.
  - revert H. apply single_no_trailing. intros x b r m' Hx Hd. cbn in Hd. unfold t_dec_idledone in Hd.
    pose proof (cut_line_line x [] Hx) as E. rewrite app_nil_r in E. rewrite E in Hd.
    destruct (bytes_eqb _ _); discriminate.
Qed.

(** Cutting wire bytes loses nothing. *)
Lemma cut_line_app : forall w l r, cut_line w = Some (l, r) -> w = l ++ r.
Proof.
  induction w as [|b w IH]; intros l r H; [discriminate|]. cbn in H. destruct (is_lf b).
  - injection H as <- <-. reflexivity.
  - destruct (cut_line w) as [[a c]|]; [|discriminate]. injection H as <- <-. cbn. f_equal. now apply IH.
Qed.

Lemma walk_frags : forall fuel w fs r, walk fuel w = WDone fs r -> w = frags_bytes fs ++ r.
Proof.
  induction fuel as [|fuel IH]; intros w fs r H; [discriminate|]. cbn [walk] in H.
  destruct (cut_line w) as [[l r0]|] eqn:C; [|discriminate]. apply cut_line_app in C as ->.
  destruct (announce l) as [[n m]|].
  - destruct r0 as [|b r0]; [discriminate|].
    destruct (N.leb n _); [|discriminate].
    destruct (walk fuel _) as [fs' r'| |] eqn:W; try discriminate. injection H as <- <-.
    apply IH in W. unfold frags_bytes in *. cbn [map concat frag_data].
    rewrite <- !app_assoc, <- W, firstn_skipn. reflexivity.
  - injection H as <- <-. unfold frags_bytes. cbn [map concat frag_data]. now rewrite app_nil_r.
Qed.

(** Encodings are not empty. *)
Lemma toy_nonempty : (forall g, frags_bytes (enc_greeting toy g) <> []) /\
  (forall r, frags_bytes (enc_response toy r) <> []).
Proof.
  split.
  - intros g. cbn. discriminate.
  - intros r. cbn [enc_response toy]. unfold t_enc_response.
    assert (N : response_wire r ++ crlf <> []) by (intro H; now apply app_eq_nil in H as [_ H]).
    assert (D : forall x, x <> [] -> frags_bytes [FLine x] <> [])
      by (intros x Hx; unfold frags_bytes; cbn; now rewrite app_nil_r).
    destruct (walk_all _) as [fs [|b r0]| |] eqn:W; try (apply D, N).
    intro E. apply N. apply walk_frags in W. now rewrite E in W.
Qed.
