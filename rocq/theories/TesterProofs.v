(** Proofs about the testers: what they accept. *)
From Coq Require Import List Bool NArith.
From Verif Require Import Base Types Codec Handle ClientSend Client ServerSend Server Stream
  StreamMachine Testers SpecTests.
Import ListNotations.

Lemma same_iff : forall A (dec : forall a b : A, {a = b} + {a <> b}) x y,
  same dec x y = true <-> x = Some y.
Proof.
  intros A dec [a|] y; cbn; [|split; discriminate]. destruct (dec a y) as [->|N]; [tauto|].
  split; [discriminate|]. intro E. injection E as ->. now contradiction N.
Qed.

Lemma only_iff : forall M L (r : dec_result M L) m, only r = Some m <-> r = DecOk [] m.
Proof.
  intros M L r m. unfold only. destruct r as [[|b r] x| | |]; split; intro E; try discriminate;
    now injection E as ->.
Qed.

Lemma normalized_iff : forall M (enc : M -> list fragment) b x m,
  normalized enc b x = Some m <-> x = Some m /\ frags_bytes (enc m) = b.
Proof.
  intros M enc b [x|] m; cbn; [|split; [discriminate|intros (E & _); discriminate]].
  destruct (bytes_eqb (frags_bytes (enc x)) b) eqn:B.
  - apply bytes_eqb_eq in B. split; [intro E; injection E as <-; auto|]. now intros (E & _).
  - split; [discriminate|]. intros (E & F). injection E as ->. rewrite F, bytes_eqb_refl in B. discriminate.
Qed.

Section Testers.
Context (K : Codecs).

Lemma dec_status_iff : forall b s, dec_status K b = Some s <-> is_status K b s.
Proof.
  intros b s. unfold dec_status, is_status, dec_res. rewrite <- only_iff.
  destruct (only (dec_response K b)) as [[| |]|]; split; intro E; try discriminate; now injection E as ->.
Qed.
Lemma dec_data_iff : forall b d, dec_data K b = Some d <-> dec_response K b = DecOk [] (RData d).
Proof.
  intros b s. unfold dec_data, dec_res. rewrite <- only_iff.
  destruct (only (dec_response K b)) as [[| |]|]; split; intro E; try discriminate; now injection E as ->.
Qed.
Lemma dec_ccr_iff : forall b q, dec_ccr K b = Some q <-> dec_response K b = DecOk [] (RCcr q).
Proof.
  intros b s. unfold dec_ccr, dec_res. rewrite <- only_iff.
  destruct (only (dec_response K b)) as [[| |]|]; split; intro E; try discriminate; now injection E as ->.
Qed.

Lemma my_iff : forall t h, my K t h = true <-> exists c, ct_cmd K t = Some (h, c).
Proof.
  intros t h. unfold my. destruct (ct_cmd K t) as [[h' c]|].
  - destruct (handle_dec h h') as [->|N]; split; try discriminate; eauto.
    intros (? & E). injection E as -> ->. now contradiction N.
  - split; [discriminate|]. intros (? & E). discriminate.
Qed.
Lemma mine_iff : forall t h c, mine K t h c = true <-> ct_cmd K t = Some (h, c).
Proof.
  intros t h c. unfold mine. rewrite andb_true_iff, my_iff, same_iff. split.
  - intros ((c' & E) & F). rewrite E in *. cbn in F. now injection F as ->.
  - intros ->. cbn. eauto.
Qed.

Ltac crush :=
  repeat match goal with
  | H : andb _ _ = true |- _ => apply andb_true_iff in H as [? ?]
  | H : same _ (option_map _ _) _ = true |- _ => apply same_iff in H
  | H : same _ _ _ = true |- _ => apply same_iff in H
  | H : mine _ _ _ _ = true |- _ => apply mine_iff in H
  | H : my _ _ _ = true |- _ => apply my_iff in H as [? H]
  | H : dec_status_n _ _ = Some _ |- _ => apply normalized_iff in H as [H ?]
  | H : dec_cmd_n _ _ = Some _ |- _ => apply normalized_iff in H as [H ?]
  | H : dec_gr_n _ _ = Some _ |- _ => apply normalized_iff in H as [H ?]
  | H : dec_status _ _ = Some _ |- _ => apply dec_status_iff in H
  | H : dec_data _ _ = Some _ |- _ => apply dec_data_iff in H
  | H : dec_ccr _ _ = Some _ |- _ => apply dec_ccr_iff in H
  | H : dec_cmd _ _ = Some _ |- _ => apply only_iff in H
  | H : dec_gr _ _ = Some _ |- _ => apply only_iff in H
  | H : dec_auth _ _ = Some _ |- _ => apply only_iff in H
  end.
Ltac build :=
  repeat match goal with
  | |- andb _ _ = true => apply andb_true_iff; split
  | |- same _ _ _ = true => apply same_iff
  | |- mine _ _ _ _ = true => apply mine_iff
  | |- my _ _ _ = true => apply my_iff; eauto
  | |- dec_status_n _ _ = Some _ => apply normalized_iff; split
  | |- dec_cmd_n _ _ = Some _ => apply normalized_iff; split
  | |- dec_gr_n _ _ = Some _ => apply normalized_iff; split
  | |- dec_status _ _ = Some _ => apply dec_status_iff
  | |- dec_data _ _ = Some _ => apply dec_data_iff
  | |- dec_ccr _ _ = Some _ => apply dec_ccr_iff
  | |- dec_cmd _ _ = Some _ => apply only_iff
  | |- dec_gr _ _ = Some _ => apply only_iff
  | |- dec_auth _ _ = Some _ => apply only_iff
  end; auto.

Lemma c_meets_iff : forall t x r, c_meets K t x r = true <-> client_wants K (ct_cmd K t) x r.
Proof.
  intros t x r. split.
  - intro E. destruct x, r as [e|e| | | |]; try discriminate; destruct e; try discriminate;
      cbn [c_meets] in E; crush; try (econstructor; eauto; fail).
    all: match goal with H : Some _ = Some _ |- _ => injection H as -> end; constructor.
  - intro H. destruct H; cbn [c_meets]; build.
Qed.

Lemma s_meets_iff : forall t x r, s_meets K t x r = true <-> server_wants K (st_sent K t) x r.
Proof.
  intros t x r. split.
  - intro E. destruct x, r as [e|e| | | |]; try discriminate; destruct e; try discriminate;
      cbn [s_meets] in E; crush; try (econstructor; eauto; fail).
    1:{ destruct (st_sent K t) as [[h' q']|] eqn:S; [|discriminate]. crush.
        repeat match goal with H : Some _ = Some _ |- _ => injection H as -> end. now constructor. }
    all: try (match goal with H : Some _ = Some _ |- _ => injection H as -> end; constructor).
    all: match goal with H : option_map _ (dec_cmd K ?b) = Some _ |- _ =>
      destruct (dec_cmd K b) as [c|] eqn:D; [|discriminate]; injection H as <- end.
    all: apply only_iff in D; now constructor.
  - intro H. destruct H as [b g|h q E|b|b|b|b|b c|b c E| |b ca|b d]; cbn [s_meets]; build.
    + rewrite E. build.
    + apply only_iff in E. unfold dec_cmd. now rewrite E.
Qed.
End Testers.
