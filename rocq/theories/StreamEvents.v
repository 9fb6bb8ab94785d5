(** The stream returns the events and errors of its state, without loss or duplication. *)
From Coq Require Import List NArith Bool PeanoNat.
From Verif Require Import Base Types Codec Stream SpecStream StreamProofs.
Import ListNotations.

Section Events.
Context (T : tls) (M : machine) (fuel : nat).
Implicit Types l : list (xlog M).

Lemma next_outcomes_app : forall l1 l2, next_outcomes (l1 ++ l2) = next_outcomes l1 ++ next_outcomes l2.
Proof. induction l1 as [|e l1 IH]; intro l2; cbn; auto. destruct e as [| |[]| | | | | | | |]; cbn; now rewrite ?IH. Qed.
Lemma ret_outcomes_app : forall l1 l2, ret_outcomes (l1 ++ l2) = ret_outcomes l1 ++ ret_outcomes l2.
Proof. induction l1 as [|e l1 IH]; intro l2; cbn; auto. destruct e as [| | | | | | |[]| | |]; cbn; now rewrite ?IH. Qed.

(** Outcomes are returned at once. *)
Definition plain (e : xlog M) : Prop := next_outcomes [e] = [] /\ ret_outcomes [e] = [].
Inductive paired : list (xlog M) -> Prop :=
| pa_nil : paired []
| pa_event : forall e l, paired l -> paired (XNext (MEvent e) :: XRet (RetEvent e) :: l)
| pa_error : forall e l, paired l -> paired (XNext (MError e) :: XRet (RetState e) :: l)
| pa_other : forall e l, plain e -> paired l -> paired (e :: l).

Lemma paired_app : forall l1 l2, paired l1 -> paired l2 -> paired (l1 ++ l2).
Proof. intros l1 l2 H1 H2. induction H1; cbn; auto using paired. Qed.

Lemma sync_paired : forall (s : stream T) m x' l', sync T M fuel s m = (x', l') -> paired l'.
Proof.
  intros s m x' l' E. apply sync_log in E as (li & lr & Hi & Hr).
  assert (Pi : paired li) by (destruct Hi as [->|(b & _ & ->)]; repeat constructor).
  assert (F : forall e : xlog M, e = XRet RetIo \/ e = XRet RetTls \/ e = XHang -> paired [e])
    by (intros e [->|[->| ->]]; repeat constructor).
  destruct Hr as [(-> & [->|(e & -> & He)])|(r & -> & Hr)]; apply paired_app; auto.
  - repeat constructor.
  - destruct r as [e| |b|e].
    + destruct Hr as [-> _]. repeat constructor.
    + apply pa_other; [split; reflexivity|]. destruct Hr as [[-> _]|(e & -> & He)]; auto. constructor.
    + apply pa_other; [split; reflexivity|]. destruct Hr as [[-> _]|(e & -> & He)]; auto. constructor.
    + destruct Hr as [-> _]. repeat constructor.
Qed.

Lemma flush_paired : forall (s : stream T) (m : m_st M) x' l', start_flush T M fuel s m = (x', l') -> paired l'.
Proof.
  intros s m x' l' E. unfold start_flush in E.
  assert (F : forall s m r y k, fail T M s m [] r = (y, k) -> paired k).
  { intros s2 m2 r y k H. destruct r; apply pair_equal_spec in H as [_ <-]; repeat constructor. }
  destruct (x_tls s) as [t|]; [|apply pair_equal_spec in E as [_ <-]; constructor].
  destruct (t_flush T t) as [t1|]; [|eapply F; eauto].
  destruct (sync_output T fuel _ []) as [s2 [e|]]; [eapply F; eauto|].
  apply pair_equal_spec in E as [_ <-]. constructor.
Qed.

Lemma xstep_paired : forall x a x' l', xstep T M fuel x a = (x', l') -> paired l'.
Proof.
  intros x a x' l' E.
  assert (O : forall e l, plain e -> paired l -> paired (e :: l)) by (intros; now apply pa_other).
  assert (N : paired []) by constructor.
  destruct a as [| |r|r|ok| |o]; cbn [xstep] in E.
  - destruct (x_f x); try (apply pair_equal_spec in E as [_ <-]; exact N).
    destruct (sync T M fuel (x_s x) (x_m x)) as [y k] eqn:S. apply pair_equal_spec in E as [_ <-].
    apply O; [now split|]. eapply sync_paired; eauto.
  - destruct (x_f x); try (apply pair_equal_spec in E as [_ <-]; exact N).
    destruct (start_flush T M fuel (x_s x) (x_m x)) as [y k] eqn:S. apply pair_equal_spec in E as [_ <-].
    apply O; [now split|]. eapply flush_paired; eauto.
  - destruct (reading (x_f x)); [|apply pair_equal_spec in E as [_ <-]; exact N].
    destruct r as [[|b r]|]; try (apply pair_equal_spec in E as [_ <-]; repeat (apply O; [now split|]); exact N).
    destruct (sync T M fuel _ (x_m x)) as [y k] eqn:S. apply pair_equal_spec in E as [_ <-].
    apply O; [now split|]. eapply sync_paired; eauto.
  - destruct (writing (x_f x)); [|apply pair_equal_spec in E as [_ <-]; exact N].
    destruct r as [[|n]|]; try (apply pair_equal_spec in E as [_ <-]; repeat (apply O; [now split|]); exact N).
    destruct (Nat.leb (S n) (length (x_wbuf (x_s x)))); [|apply pair_equal_spec in E as [_ <-]; exact N].
    cbn [x_wbuf] in E. destruct (skipn (S n) (x_wbuf (x_s x)));
      [|apply pair_equal_spec in E as [_ <-]; repeat (apply O; [now split|]); exact N].
    destruct (x_f x); try (apply pair_equal_spec in E as [_ <-]; repeat (apply O; [now split|]); exact N).
    destruct (sync T M fuel _ (x_m x)) as [y k] eqn:S. apply pair_equal_spec in E as [_ <-].
    apply O; [now split|]. eapply sync_paired; eauto.
  - destruct (x_f x); apply pair_equal_spec in E as [_ <-]; try exact N.
    apply O; [destruct ok; now split|exact N].
  - destruct (pending (x_f x)); apply pair_equal_spec in E as [_ <-]; [apply O; [now split|exact N]|exact N].
  - destruct (x_f x); try (apply pair_equal_spec in E as [_ <-]; exact N).
    destruct (m_call M (x_m x) o) as [[m1 r]|]; apply pair_equal_spec in E as [_ <-];
      (apply O; [now split|exact N]).
Qed.

Lemma xrun_paired : forall x0 acts x l, xrun T M fuel x0 acts = (x, l) -> paired l.
Proof.
  intros x0 acts x l E. apply (xrun_ind T M fuel (fun _ l => paired l) x0) in E; auto.
  - constructor.
  - intros. apply paired_app; auto. eapply xstep_paired; eauto.
Qed.

Lemma paired_outcomes : forall l, paired l -> ret_outcomes l = next_outcomes l.
Proof.
  intros l H. induction H as [|e l H IH|e l H IH|e l [P1 P2] H IH]; cbn; [reflexivity|congruence|congruence|].
  change (ret_outcomes ([e] ++ l) = next_outcomes ([e] ++ l)).
  now rewrite ret_outcomes_app, next_outcomes_app, P1, P2.
Qed.

Theorem outcomes_returned : forall x0 acts x l, xrun T M fuel x0 acts = (x, l) ->
  ret_outcomes l = next_outcomes l.
Proof. intros x0 acts x l E. eapply paired_outcomes, xrun_paired; eauto. Qed.

(** ... and at once. *)
Theorem returned_at_once : forall x0 acts x l, xrun T M fuel x0 acts = (x, l) ->
  forall l1 r l2, l = l1 ++ XNext r :: l2 ->
  match r with
  | MEvent e => exists l3, l2 = XRet (RetEvent e) :: l3
  | MError e => exists l3, l2 = XRet (RetState e) :: l3
  | _ => True
  end.
Proof.
  intros x0 acts x l E l1 r l2 H. apply xrun_paired in E. revert l1 H.
  assert (G : forall e l1 l, [] = l1 ++ (e : xlog M) :: l -> False) by (intros e [|]; discriminate).
  induction E as [|e l E IH|e l E IH|e l P E IH]; intros l1 H.
  - now apply G in H.
  - destruct l1 as [|y [|z l1]]; cbn in H.
    + injection H as <- <-. eauto.
    + discriminate.
    + injection H as _ _ H. eapply IH; eauto.
  - destruct l1 as [|y [|z l1]]; cbn in H.
    + injection H as <- <-. eauto.
    + discriminate.
    + injection H as _ _ H. eapply IH; eauto.
  - destruct l1 as [|y l1]; cbn in H.
    + injection H as -> ->. destruct P as [P _]. destruct r; auto; discriminate.
    + injection H as _ H. eapply IH; eauto.
Qed.
End Events.
