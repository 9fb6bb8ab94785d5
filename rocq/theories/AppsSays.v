(** What the example servers say is justified by what they received. *)
From Coq Require Import List NArith Bool PeanoNat Lia.
From Coq Require String.
Import (notations) String.
From Verif Require Import Base Types Codec Handle ClientSend Client ServerSend Server
  SpecClient SpecServer Stream StreamMachine SpecNet ServerInv Apps SpecApps AppsProofs AppsServer.
Import ListNotations.
Local Open Scope list_scope.

Section Says.
Context (K : Codecs).
Notation SM := (server_machine K).

(** ** A rule that ignores what can happen *)
Section Rule.
Context (P : program SM) (J : pr_st P -> list slog -> Prop) (G : list slog -> Prop).

Fixpoint wsay (b : body SM (pr_st P)) (A : list slog) : Prop :=
  match b with
  | Again p => J p A
  | Return | Fails => True
  | Does o k => forall r : slog, styped o r -> G (A ++ [r]) /\ wsay (k r) (A ++ [r])
  end.
Definition says_inv (st : pstate P) (A : list slog) : Prop :=
  match st with PAt p => J p A | PIn o k => wsay (Does o k) A | PEnd _ => True end.
Lemma says_resume : forall b A, wsay b A -> says_inv (resume b) A.
Proof. intros b A H. destruct b; exact H || exact I. Qed.

Hypothesis start : J (pr_start P) [] /\ G [].
Hypothesis on_event : forall p A coin e, J p A -> G A ->
  G (A ++ [sev e]) /\ wsay (pr_event P p coin e) (A ++ [sev e]).
Hypothesis on_error : forall A e, G A -> G (A ++ [SlNext (IError e)]).
Hypothesis on_line : forall p A x b, J p A -> G A -> pr_line P p x = Some b -> wsay b A.

Lemma says_rule : forall (l : list (xlog SM)) st, psteps P l st ->
  (forall o r, In (XCall o r) l -> styped o r) -> says_inv st (flat_map server_app l) /\ G (flat_map server_app l).
Proof.
  intros l st S. induction S as [|l st e st' S IH S1]; intros Ty; [exact start|].
  rewrite flat_map_app. cbn [flat_map]. rewrite app_nil_r.
  destruct IH as [I HG]; [intros; apply Ty, in_or_app; now left|].
  destruct S1 as [p e Hi|p coin e|p r Hr|p x b Hb|p x o k r Hb|o k r|p e He|o k]; cbn [says_inv] in I.
  - replace (server_app e) with (@nil slog) by (destruct e; try discriminate; reflexivity).
    rewrite app_nil_r. now split.
  - cbn. destruct (on_event p _ coin e I HG) as [G1 W]. split; [now apply says_resume|exact G1].
  - split; [exact Logic.I|]. destruct (server_app_ret K r Hr) as [E|(e & E)]; rewrite E; [now rewrite app_nil_r|auto].
  - cbn. rewrite app_nil_r. split; [|exact HG]. apply says_resume. eapply on_line; eauto.
  - assert (W : wsay (Does o k) (flat_map server_app l)) by (eapply on_line; eauto).
    destruct (W r) as [G1 W1]; [apply Ty, in_or_app; right; now left|].
    split; [now apply says_resume|exact G1].
  - destruct (I r) as [G1 W1]; [apply Ty, in_or_app; right; now left|].
    split; [now apply says_resume|exact G1].
  - replace (server_app e) with (@nil slog) by (destruct He as [->| ->]; reflexivity).
    rewrite app_nil_r. now split.
  - cbn. rewrite app_nil_r. now split.
Qed.
End Rule.

Lemma just_nil : forall just, justified just [].
Proof. intros just [|] e A2 E; discriminate. Qed.
Lemma just_snoc : forall just A e, justified just A -> (s_call e = true -> just A e) -> justified just (A ++ [e]).
Proof.
  intros just A e H He A1 x A2 E Hx. destruct A2 as [|y A2 _] using rev_ind.
  - apply app_inj_tail in E as [-> ->]. auto.
  - rewrite app_comm_cons, app_assoc in E. apply app_inj_tail in E as [-> _]. eauto.
Qed.
Lemma just_next : forall just A r, justified just A -> justified just (A ++ [SlNext r]).
Proof. intros. apply just_snoc; [assumption|discriminate]. Qed.

Ltac call_result := let r := fresh "r" in let Hr := fresh "Hr" in
  intros r Hr; destruct r; try contradiction; cbn in Hr; subst.

Lemma server_rs_says : forall l st, psteps (server_rs K) l st ->
  (forall o r, In (XCall o r) l -> styped o r) -> justified server_says (flat_map server_app l).
Proof.
  intros l st S Ty.
  apply (says_rule (server_rs K) (fun _ _ => True) (justified server_says)) with (st := st); auto.
  - split; [exact I|apply just_nil].
  - intros p A coin e _ HG. split; [now apply just_next|].
    destruct p as [|hs]; destruct e; try exact I.
    + cbn [pr_event server_rs server_event]. destruct hs; [exact I|]. unfold assert_same.
      destruct (handle_eqb h0 h); exact I.
    + cbn [pr_event server_rs server_event enqueue_response wsay]. call_result.
      split; [|exact I]. apply just_snoc; [now apply just_next|]. intros _. exists A, c, h. auto.
  - intros A e HG. now apply just_next.
  - intros p A x b _ _ E. discriminate.
Qed.

Lemma sevents_in : forall A e, In e (sevents (A ++ [sev e])).
Proof. intros. rewrite sevents_app. apply in_or_app. right. now left. Qed.
Lemma sevents_more : forall A B e, In e (sevents A) -> In e (sevents (A ++ B)).
Proof. intros. rewrite sevents_app. apply in_or_app. now left. Qed.

Lemma server_authenticate_rs_says : forall l st, psteps (server_authenticate_rs K) l st ->
  (forall o r, In (XCall o r) l -> styped o r) -> justified server_authenticate_says (flat_map server_app l).
Proof.
  set (J := fun (p : sap) (A : list slog) => match p with
    | SapMain (Some t) => exists ca, In (SeCommandAuthenticateReceived ca) (sevents A) /\ ca_tag ca = t
    | _ => True end).
  assert (JN : forall p A e, J p A -> J p (A ++ [e])).
  { intros [|[t|]] A e; auto. intros (ca & H & <-). exists ca. split; [now apply sevents_more|reflexivity]. }
  intros l st S Ty.
  apply (says_rule (server_authenticate_rs K) J (justified server_authenticate_says)) with (st := st); auto.
  - split; [exact I|apply just_nil].
  - intros p A coin e HJ HG. split; [now apply just_next|].
    assert (HG' : justified server_authenticate_says (A ++ [sev e])) by now apply just_next.
    apply (JN _ _ (sev e)) in HJ.
    destruct p as [|cur]; [destruct e; exact I|].
    destruct e; cbn [pr_event server_authenticate_rs server_authenticate_event wsay]; try exact HJ.
    + cbn [enqueue_response wsay]. call_result.
      split; [|exact (JN (SapMain cur) _ _ HJ)]. apply just_snoc; [exact HG'|]. intros _. exists A, (SeCommandReceived c). auto.
    + destruct coin; cbn [authenticate_continue authenticate_finish wsay]; call_result;
        (split; [apply just_snoc; [exact HG'|]; intros _; eexists A, _; split; [reflexivity|]; reflexivity|]).
      * destruct r; cbn [unwrapped wsay]; [|exact I]. eexists. split; [apply sevents_more; apply sevents_in|reflexivity].
      * destruct r; cbn [unwrapped wsay]; [|exact I]. exact (JN (SapMain cur) _ _ HJ).
    + destruct coin; [|destruct cur as [t|]; [|exact I]];
        cbn [authenticate_continue authenticate_finish wsay]; call_result.
      * split; [apply just_snoc; [exact HG'|]; intros _; eexists A, _; split; [reflexivity|]; reflexivity|].
        destruct r; cbn [unwrapped wsay]; [|exact I]. exact (JN (SapMain cur) _ _ HJ).
      * split; [|destruct r; exact I]. destruct HJ as (ca & H & <-).
        apply just_snoc; [exact HG'|]; intros _; eexists A, _; split; [reflexivity|]. exists ca. split; [exact H|reflexivity].
  - intros A e HG. now apply just_next.
  - intros p A x b _ _ E. discriminate.
Qed.

Lemma server_idle_rs_says : forall expunge l st, psteps (server_idle_rs K expunge) l st ->
  (forall o r, In (XCall o r) l -> styped o r) ->
  justified (server_idle_says expunge) (flat_map server_app l).
Proof.
  intro expunge.
  set (J := fun (p : sip) (A : list slog) => match p with
    | SipMain (Some t) => In (SeIdleCommandReceived t) (sevents A)
    | _ => True end).
  assert (JN : forall p A e, J p A -> J p (A ++ [e])).
  { intros [|[t|]] A e; auto. apply sevents_more. }
  intros l st S Ty.
  apply (says_rule (server_idle_rs K expunge) J (justified (server_idle_says expunge))) with (st := st); auto.
  - split; [exact I|apply just_nil].
  - intros p A coin e HJ HG. split; [now apply just_next|].
    assert (HG' : justified (server_idle_says expunge) (A ++ [sev e])) by now apply just_next.
    apply (JN _ _ (sev e)) in HJ.
    destruct p as [|cur]; [destruct e; exact I|].
    destruct e; cbn [pr_event server_idle_rs server_idle_event wsay]; try exact HJ.
    + apply sevents_in.
    + destruct cur as [t|]; [|exact I]. cbn [enqueue_response wsay]. call_result.
      split; [|exact I]. apply just_snoc; [exact HG'|]. intros _. exists A, t. split; [reflexivity|]. split; [reflexivity|exact HJ].
  - intros A e HG. now apply just_next.
  - intros p A x b HJ HG E. destruct p as [|cur]; [discriminate|]. injection E as <-.
    destruct (bytes_eqb x (lit "ok")); [|destruct (bytes_eqb x (lit "no")); [destruct cur as [t|]|destruct (bytes_eqb x (lit "expunge"))]];
      cbn [enqueue_response idle_accept idle_reject wsay]; try exact HJ; call_result;
      (split; [apply just_snoc; [exact HG|]; intros _; try reflexivity|exact (JN (SipMain _) _ _ HJ)]).
    exists t. split; [reflexivity|exact HJ].
Qed.
End Says.
