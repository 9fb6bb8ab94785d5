(** What the applications of two connected streams see fits together, whatever they do. *)
From Coq Require Import List NArith Bool PeanoNat Lia.
From Verif Require Import Base Types Codec Handle Receive ClientSend Client ServerSend Server
  SpecFraming SpecClient SpecServer ClientAbs System SystemAbs SpecSystem SpecSystemLive SpecViews SystemViews
  Stream StreamMachine SpecStream Net SpecNet NetProofs NetApp NetThms NetViews ClientFit ProxyEffect.
From Verif Require ServerAbs ServerInv.
Import ListNotations.

(** ** Client *)

Lemma shown_closing : forall l, closing (filter c_shown l) = closing l.
Proof.
  intro l. apply shown_cfold. intros a e. destruct e as [| | | |c|[]|]; cbn; try discriminate; auto.
Qed.

Lemma shown_fitting : forall l, all_fitting l -> all_fitting (filter c_shown l).
Proof.
  intros l H l1 e l2 E. apply filter_split in E as (a & b & E & <- & <-).
  specialize (H _ _ _ E). unfold fitting, concerns in *.
  destruct e as [| |d0 [h0|]|[h0|]| |[[]| | | | | |]|];
    rewrite ?shown_oldest, ?shown_due, ?shown_idles, ?shown_closing; exact H.
Qed.

(** ** Server *)

Definition granted {A B} (b : bool) (r : A + B) : Prop :=
  if b then exists x, r = inl x else exists y, r = inr y.

Definition modal (m : expected) (e : slog) : Prop :=
  expects m e /\
  match e with
  | SlAuthContinue _ r => granted (expected_eqb m ExAuthenticateData) r
  | SlAuthFinish _ r => granted (expected_eqb m ExAuthenticateData) r
  | SlIdleAccept _ r => granted (expected_eqb m ExIdleAccept) r
  | SlIdleReject _ r => granted (expected_eqb m ExIdleAccept) r
  | _ => True
  end.
Definition all_modal (l : list slog) : Prop := forall l1 e l2, l = l1 ++ e :: l2 -> modal (smode l1) e.

Lemma smode_app : forall l1 l2, smode (l1 ++ l2) = fold_left smode_step l2 (smode l1).
Proof. intros. apply fold_left_app. Qed.

Lemma expect_at : forall l1 e l2 m, expect m (l1 ++ e :: l2) -> expects (fold_left smode_step l1 m) e.
Proof. induction l1 as [|x l1 IH]; cbn; intros e l2 m [H1 H2]; eauto. Qed.

Section Modal.
  Variable K : Codecs.
  Variable o : soptions.

  Lemma xstep_modal : forall a l a', ServerAbs.xstep K o a l a' ->
    forall l1 e l2, l = l1 ++ e :: l2 -> modal (fold_left smode_step l1 (ServerAbs.x_mode a)) e.
  Proof.
    intros a l a' H l1 e l2 E. split.
    - apply (expect_at l1 e l2). rewrite <- E. eapply xstep_expect; eauto.
    - destruct H;
        try (repeat (destruct l1 as [|? l1]; cbn in E; try discriminate; injection E; intros; subst; auto));
        try (destruct l1; discriminate).
      + destruct p; cbn in H; unfold ServerAbs.xenqueue in H;
          repeat match type of H with context [hgen_generate ?g] => destruct (hgen_generate g) end;
          destruct (ServerAbs.x_mode a); try discriminate; injection H as _ <-; cbn; eauto.
  Qed.

  Lemma xsteps_modal : forall a l a', ServerAbs.xsteps K o a l a' ->
    forall l1 e l2, l = l1 ++ e :: l2 -> modal (fold_left smode_step l1 (ServerAbs.x_mode a)) e.
  Proof.
    intros a l a' H. induction H as [a|a l a1 l1 a2 H IH H1]; intros x e y E; [destruct x; discriminate|].
    apply app_split in E as [(z & E1)|(z & E1 & E2)].
    - eapply IH; eauto.
    - subst x. rewrite fold_left_app, <- (xsteps_mode _ _ _ _ _ H). eapply xstep_modal; eauto.
  Qed.
End Modal.

Lemma shown_smode : forall l, smode (filter s_shown l) = smode l.
Proof.
  intro l. apply shown_fold. intros a e S. destruct e as [| | | | | | |[]|]; try discriminate; reflexivity.
Qed.
Lemma shown_modal : forall l, all_modal l -> all_modal (filter s_shown l).
Proof.
  intros l H l1 e l2 E. apply filter_split in E as (a & b & E & <- & <-).
  rewrite shown_smode. eauto.
Qed.

Lemma net_fit : forall K relaxed o gc gs gr T1 T2 z L,
  @talk K relaxed o gc gs gr T1 T2 z L ->
  all_fitting (clogs (app_log L)) /\ all_modal (slogs (app_log L)).
Proof.
  intros K relaxed o gc gs gr T1 T2 z L Tk.
  destruct (net_direct K relaxed o gc gs gr T1 T2 z L Tk) as (acts & y & l & Y & St & E1 & E2).
  destruct (sys_run_new K relaxed o gc gs gr _ _ _ Y) as (zz & S & _).
  rewrite E1, E2, shown_clogs, shown_slogs. split.
  - apply shown_fitting. exact (fit_steps K relaxed _ _ _ (zsteps_asteps K relaxed o _ _ _ S)).
  - apply shown_modal. intros l1 e l2 E.
    exact (xsteps_modal K o _ _ _ (zsteps_xsteps K relaxed o _ _ _ S) _ _ _ E).
Qed.
