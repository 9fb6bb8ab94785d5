(** Proofs about the filters of the proxy. *)
From Coq Require Import List NArith Bool.
From Verif Require Import Base Types Codec ProxyUtil Proxy SpecProxy.
Import ListNotations.

Lemma keep_supported : forall c, keep_capability c = true <-> supported c.
Proof.
  intro c. unfold supported. split.
  - intro H. destruct c as [|m| | |r| | | | | | | |n]; cbn in H; try discriminate;
      try (left; cbn; tauto); right; [right|left; eauto].
    exists m. split; [reflexivity|]. destruct m; cbn in H; try discriminate; cbn; tauto.
  - intros [H|[[r ->]|[m [-> H]]]]; [|reflexivity|].
    + cbn in H. repeat (destruct H as [<-|H]; [reflexivity|]). destruct H.
    + cbn in H. repeat (destruct H as [<-|H]; [reflexivity|]). destruct H.
Qed.

Lemma filter_keeps : forall l, keeps l (filter keep_capability l).
Proof.
  induction l as [|c l IH]; cbn; [constructor|].
  destruct (keep_capability c) eqn:E.
  - constructor; [now apply keep_supported|assumption].
  - constructor; [|assumption]. intro H. apply keep_supported in H. congruence.
Qed.

Lemma keeps_supported : forall l l', keeps l l' -> Forall supported l'.
Proof. intros l l' H. induction H; auto. Qed.

Lemma keeps_fun : forall l l1 l2, keeps l l1 -> keeps l l2 -> l1 = l2.
Proof.
  intros l l1 l2 H. revert l2.
  induction H as [|c l l' S H IH|c l l' S H IH]; intros l2 H2; inversion H2; subst; auto;
    try contradiction. f_equal. auto.
Qed.

Lemma keeps_id : forall l, Forall supported l -> keeps l l.
Proof. intros l H. induction H; constructor; auto. Qed.

Lemma caps_reduced : forall v, reduced v (filter_capabilities v).
Proof.
  intro v. unfold reduced, filter_capabilities. pose proof (filter_keeps (v1_list v)) as H.
  destruct (filter keep_capability (v1_list v)) as [|c l]; [right|left]; auto.
Qed.

Lemma supported_rev1 : supported CapImap4Rev1.
Proof. left. cbn. tauto. Qed.

Lemma reduced_supported : forall v v', reduced v v' -> Forall supported (v1_list v').
Proof.
  intros v v' [H|[_ ->]]; [now apply keeps_supported in H|].
  constructor; [apply supported_rev1|constructor].
Qed.

(** The result is determined. *)
Lemma reduced_fun : forall v v1 v2, reduced v v1 -> reduced v v2 -> v1 = v2.
Proof.
  assert (E : forall v1 v2 : vec1 capability, v1_list v1 = v1_list v2 -> v1 = v2).
  { intros [a l] [b l'] H. unfold v1_list in H. cbn in H. congruence. }
  intros v v1 v2 [H1|[H1 H1']] [H2|[H2 H2']]; apply E.
  - eapply keeps_fun; eauto.
  - pose proof (keeps_fun _ _ _ H1 H2) as F. discriminate F.
  - pose proof (keeps_fun _ _ _ H1 H2) as F. discriminate F.
  - congruence.
Qed.

Lemma reduced_idem : forall v v', reduced v v' -> reduced v' v'.
Proof. intros v v' H. left. apply keeps_id. eapply reduced_supported; eauto. Qed.

Lemma filter_capabilities_idem : forall v,
  filter_capabilities (filter_capabilities v) = filter_capabilities v.
Proof.
  intro v. eapply reduced_fun; [apply caps_reduced|].
  eapply reduced_idem, caps_reduced.
Qed.

Lemma filter_code_reduced : forall c, code_reduced c (filter_code c).
Proof.
  intros [[v| |x]|]; cbn; constructor; try apply caps_reduced; intros v0; discriminate.
Qed.

Lemma filter_greeting_reduced : forall g, greeting_reduced g (filter_greeting g).
Proof. intros [k c t]. constructor. apply filter_code_reduced. Qed.

Lemma filter_data_reduced : forall d, response_reduced (RData d) (RData (filter_data d)).
Proof. intros [v|p]; constructor. apply caps_reduced. Qed.

Lemma filter_status_reduced : forall s, response_reduced (RStatus s) (RStatus (filter_status s)).
Proof.
  intros [t [k c x]|[k c x]|c t]; constructor; try constructor; apply filter_code_reduced.
Qed.

Lemma filter_continuation_reduced : forall q, response_reduced (RCcr q) (RCcr (filter_continuation q)).
Proof. intros [c t|d]; constructor. apply filter_code_reduced. Qed.

Lemma code_reduced_supported : forall c c', code_reduced c c' -> Forall supported (code_caps c').
Proof.
  intros c c' H. destruct H as [v v' H|c H]; cbn.
  - eapply reduced_supported; eauto.
  - destruct c as [[v| |x]|]; cbn; auto. now contradiction (H v).
Qed.

Lemma response_reduced_supported : forall r r', response_reduced r r' ->
  Forall supported (response_caps r').
Proof.
  intros r r' H. destruct H as [v v' H|p|t b b' H|b b' H|c c' t H|c c' t H|d]; cbn; auto.
  - eapply reduced_supported; eauto.
  - destruct H. cbn. eapply code_reduced_supported; eauto.
  - destruct H. cbn. eapply code_reduced_supported; eauto.
  - eapply code_reduced_supported; eauto.
  - eapply code_reduced_supported; eauto.
Qed.

Lemma greeting_reduced_supported : forall g g', greeting_reduced g g' ->
  Forall supported (code_caps (g_code g')).
Proof. intros g g' []. cbn. eapply code_reduced_supported; eauto. Qed.

Lemma code_reduced_fun : forall c c1 c2, code_reduced c c1 -> code_reduced c c2 -> c1 = c2.
Proof.
  intros c c1 c2 H1 H2. inversion H1; subst; inversion H2; subst; auto; try (exfalso; eauto; fail).
  - do 2 f_equal. eapply reduced_fun; eauto.
  - exfalso. eapply H0. reflexivity.
  - exfalso. eapply H. reflexivity.
Qed.

Lemma response_reduced_fun : forall r r1 r2,
  response_reduced r r1 -> response_reduced r r2 -> r1 = r2.
Proof.
  assert (B : forall b b1 b2, body_reduced b b1 -> body_reduced b b2 -> b1 = b2).
  { intros b b1 b2 [] H2. inversion H2; subst. f_equal. eapply code_reduced_fun; eauto. }
  intros r r1 r2 H1 H2. destruct H1; inversion H2; subst; auto; do 2 f_equal;
    eauto using reduced_fun, code_reduced_fun.
Qed.

(** A message without unsupported capabilities is not changed. *)
Lemma code_reduced_id : forall c, Forall supported (code_caps c) -> code_reduced c c.
Proof.
  intros [[v| |x]|] H; [apply cr_caps|apply cr_same; discriminate..].
  left. now apply keeps_id.
Qed.
Lemma response_reduced_id : forall r, Forall supported (response_caps r) -> response_reduced r r.
Proof.
  intros [[t [k c x]|[k c x]|c t]|[v|p]|[c t|d]] H; cbn in H.
  - do 2 constructor. now apply code_reduced_id.
  - do 2 constructor. now apply code_reduced_id.
  - constructor. now apply code_reduced_id.
  - constructor. left. now apply keeps_id.
  - constructor.
  - constructor. now apply code_reduced_id.
  - constructor.
Qed.
