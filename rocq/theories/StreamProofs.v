(** Proofs about the stream without TLS. *)
From Coq Require Import List NArith Bool PeanoNat Lia.
From Verif Require Import Base Stream SpecStream.
Import ListNotations.

Section Logs.
Context {M : machine}.
Implicit Types l : list (xlog M).

Ltac app_tac := let l := fresh "l" in let e := fresh "e" in let IH := fresh "IH" in
  intro l; induction l as [|e l IH]; intro; [reflexivity|];
  destruct e as [| | [] | | | | | | | |]; cbn; rewrite ?IH, ?app_assoc; reflexivity.

Lemma xread_app : forall l1 l2, xread (l1 ++ l2) = xread l1 ++ xread l2.
Proof. app_tac. Qed.
Lemma xwritten_app : forall l1 l2, xwritten (l1 ++ l2) = xwritten l1 ++ xwritten l2.
Proof. app_tac. Qed.
Lemma xgiven_app : forall l1 l2, xgiven (l1 ++ l2) = xgiven l1 ++ xgiven l2.
Proof. app_tac. Qed.
Lemma xoutputs_app : forall l1 l2, xoutputs (l1 ++ l2) = xoutputs l1 ++ xoutputs l2.
Proof. app_tac. Qed.
Lemma xnexts_app : forall l1 l2, xnexts (l1 ++ l2) = xnexts l1 ++ xnexts l2.
Proof. app_tac. Qed.
Lemma xrets_app : forall l1 l2, xrets (l1 ++ l2) = xrets l1 ++ xrets l2.
Proof. app_tac. Qed.
End Logs.

Section Runs.
Context (T : tls) (M : machine) (fuel : nat).

Lemma xrun_app : forall a1 a2 (x : xstate T M),
  xrun T M fuel x (a1 ++ a2) =
    let '(x1, l1) := xrun T M fuel x a1 in
    let '(x2, l2) := xrun T M fuel x1 a2 in (x2, l1 ++ l2).
Proof.
  induction a1 as [|a a1 IH]; intros a2 x; cbn [app xrun].
  - destruct (xrun T M fuel x a2); reflexivity.
  - destruct (xstep T M fuel x a) as [x1 l1]. rewrite IH.
    destruct (xrun T M fuel x1 a1) as [x2 l2]. destruct (xrun T M fuel x2 a2) as [x3 l3].
    now rewrite app_assoc.
Qed.

(** An invariant of states and logs holds for runs if every step preserves it. *)
Lemma xrun_ind : forall (P : xstate T M -> list (xlog M) -> Prop) x0,
  P x0 [] ->
  (forall x l a x' l', P x l -> xstep T M fuel x a = (x', l') -> P x' (l ++ l')) ->
  forall acts x l, xrun T M fuel x0 acts = (x, l) -> P x l.
Proof.
  intros P x0 H0 Hs acts. revert H0.
  assert (G : forall acts x0 l0, P x0 l0 -> forall x l,
    xrun T M fuel x0 acts = (x, l) -> P x (l0 ++ l)).
  { clear acts x0. induction acts as [|a acts IH]; intros x0 l0 H0 x l E; cbn in E.
    - injection E as <- <-. now rewrite app_nil_r.
    - destruct (xstep T M fuel x0 a) as [x1 l1] eqn:E1.
      destruct (xrun T M fuel x1 acts) as [x2 l2] eqn:E2. injection E as <- <-.
      rewrite app_assoc. eapply IH; [|exact E2]. eapply Hs; eauto. }
  intros H0 x l E. exact (G acts x0 [] H0 x l E).
Qed.
End Runs.

Section Plain.
Context (T : tls) (M : machine) (fuel : nat).
Notation xst := (xstate T M).

Lemma sync_input_plain : forall (s : stream T) (m : m_st M) s1 m1 l1 r1,
  x_tls s = None -> sync_input T M fuel s m = (s1, m1, l1, r1) ->
  x_tls s1 = None /\ x_rbuf s = xgiven l1 ++ x_rbuf s1 /\
  x_wbuf s1 = x_wbuf s /\ xread l1 = [] /\ xwritten l1 = [] /\ xoutputs l1 = [] /\
  (forall r, ~ In (XNext r) l1) /\ r1 = None /\ (m1 <> None -> x_rbuf s1 = []).
Proof.
  intros [tl rb wb] m s1 m1 l1 r1 Ht E. cbn in Ht. subst tl. unfold sync_input in E.
  cbn [x_tls x_rbuf x_wbuf] in E. destruct rb as [|b rb].
  - injection E as <- <- <- <-. repeat split; auto.
  - destruct (m_enqueue M m (b :: rb)); injection E as <- <- <- <-;
      (repeat split; try reflexivity).
    + cbn. now rewrite !app_nil_r.
    + intros r [F|[]]; discriminate F.
    + intros r [F|[]]; discriminate F.
    + intro F. now contradiction F.
Qed.

(** What one iteration does, without TLS. *)
Lemma sync_plain : forall (s : stream T) (m : m_st M) x' l',
  x_tls s = None -> sync T M fuel s m = (x', l') ->
  x_tls (x_s x') = None /\
  x_rbuf s = xgiven l' ++ x_rbuf (x_s x') /\ x_wbuf s ++ xoutputs l' = x_wbuf (x_s x') /\
  xread l' = [] /\ xwritten l' = [] /\
  (forall r, In (XNext r) l' -> x_rbuf (x_s x') = []).
Proof.
  intros s m x' l' Ht E. unfold sync in E.
  destruct (sync_input T M fuel s m) as [[[s1 m1] l1] r1] eqn:D.
  apply sync_input_plain in D as (D1 & D2 & D3 & D4 & D5 & D6 & D7 & D8 & D9); [|exact Ht].
  subst r1. destruct m1 as [m1|].
  2:{ injection E as <- <-. cbn. rewrite D6, D3, app_nil_r. repeat split; auto.
      intros r F. now apply D7 in F. }
  assert (R : x_rbuf s1 = []) by (apply D9; discriminate). clear D9.
  destruct (m_next M m1) as [[m2 r]|].
  2:{ injection E as <- <-. cbn. rewrite xgiven_app, xoutputs_app, xread_app, xwritten_app.
      rewrite D2, D3, D4, D5, D6. cbn. rewrite !app_nil_r. repeat split; auto. }
  unfold sync_output in E. rewrite D1 in E.
  assert (G : xgiven (l1 ++ [XNext r]) = xgiven l1 /\ xread (l1 ++ [XNext r]) = [] /\
    xwritten (l1 ++ [XNext r]) = [] /\
    xoutputs (l1 ++ [XNext r]) = match r with MOutput b => b | _ => [] end).
  { rewrite xgiven_app, xread_app, xwritten_app, xoutputs_app, D4, D5, D6.
    destruct r; cbn; rewrite ?app_nil_r; auto. }
  destruct G as (G1 & G2 & G3 & G4).
  destruct r as [e| |b|e]; injection E as <- <-; cbn [x_s x_tls x_rbuf x_wbuf];
    rewrite ?D3, ?D2, ?(xgiven_app (l1 ++ _)), ?(xread_app (l1 ++ _)), ?(xwritten_app (l1 ++ _)),
      ?(xoutputs_app (l1 ++ _)), G1, G2, G3, G4; cbn; rewrite ?app_nil_r; repeat split; auto.
Qed.

Definition conserved (x : xst) (l : list (xlog M)) : Prop :=
  x_tls (x_s x) = None /\
  xwritten l ++ x_wbuf (x_s x) = xoutputs l /\
  xread l = xgiven l ++ x_rbuf (x_s x).

Lemma sync_conserved : forall (s : stream T) (m : m_st M) f l x' l' rd wr b,
  conserved (XState s m f) l ->
  sync T M fuel (StreamSt (x_tls s) (x_rbuf s ++ b) (skipn wr (x_wbuf s))) m = (x', l') ->
  xread rd = b -> xwritten rd = firstn wr (x_wbuf s) -> xgiven rd = [] -> xoutputs rd = [] ->
  conserved x' (l ++ rd ++ l').
Proof.
  intros s m f l x' l' rd wr b (H1 & H2 & H3) E R1 R2 R3 R4. cbn in H1, H2, H3.
  apply sync_plain in E as (S1 & S2 & S3 & S4 & S5 & _); [|exact H1]. cbn in S2, S3.
  unfold conserved.
  rewrite !xread_app, !xwritten_app, !xgiven_app, !xoutputs_app, R1, R2, R3, R4, S4, S5.
  cbn. rewrite !app_nil_r. repeat split; [exact S1| |].
  - rewrite <- H2, <- S3, <- !app_assoc. f_equal. rewrite app_assoc, firstn_skipn. reflexivity.
  - now rewrite H3, <- !app_assoc, S2.
Qed.

Lemma conserved_other : forall x l x' l',
  conserved x l -> x_s x' = x_s x -> xread l' = [] -> xwritten l' = [] -> xgiven l' = [] ->
  xoutputs l' = [] -> conserved x' (l ++ l').
Proof.
  intros x l x' l' (H1 & H2 & H3) E R1 R2 R3 R4. unfold conserved.
  rewrite xread_app, xwritten_app, xgiven_app, xoutputs_app, R1, R2, R3, R4, !app_nil_r, E. auto.
Qed.

Lemma sync_same : forall (s : stream T), StreamSt (x_tls s) (x_rbuf s ++ []) (skipn 0 (x_wbuf s)) = s.
Proof. intros [a b c]. cbn. now rewrite app_nil_r. Qed.

Lemma xstep_conserved : forall x l a x' l',
  conserved x l -> xstep T M fuel x a = (x', l') -> conserved x' (l ++ l').
Proof.
  intros [s m f] l a x' l' H E.
  assert (Z : conserved (XState s m f) (l ++ [])) by now rewrite app_nil_r.
  assert (Q : forall y, x_s y = s -> conserved y (l ++ [])).
  { intros y Hy. eapply conserved_other; eauto. }
  destruct a as [| |r|r|ok| |o]; cbn [xstep x_s x_m x_f] in E.
  - destruct f; try (injection E as <- <-; exact Z).
    destruct (sync T M fuel s m) as [y k] eqn:E1. injection E as <- <-.
    rewrite <- (sync_same s) in E1.
    exact (sync_conserved s m FIdle l y k [XStartNext] 0 [] H E1 eq_refl eq_refl eq_refl eq_refl).
  - destruct f; try (injection E as <- <-; exact Z).
    pose proof H as (H1 & _). cbn in H1. unfold start_flush in E. rewrite H1 in E.
    injection E as <- <-. eapply conserved_other; eauto.
  - destruct (reading f); [|injection E as <- <-; exact Z].
    destruct r as [[|b r]|].
    + injection E as <- <-. eapply conserved_other; eauto.
    + destruct (sync T M fuel _ m) as [y k] eqn:E1. injection E as <- <-.
      change (XRead (b :: r) :: k) with ([XRead (b :: r)] ++ k).
      eapply (sync_conserved s m f l y k _ 0 (b :: r) H E1); cbn; rewrite ?app_nil_r; auto.
    + injection E as <- <-. eapply conserved_other; eauto.
  - destruct (writing f); [|injection E as <- <-; exact Z].
    destruct r as [[|n]|]; try (injection E as <- <-; eapply conserved_other; eauto; fail).
    destruct (Nat.leb (S n) (length (x_wbuf s))); [|injection E as <- <-; exact Z].
    assert (K : forall f', conserved (XState (StreamSt (x_tls s) (x_rbuf s) (skipn (S n) (x_wbuf s))) m f')
               (l ++ [XWrote (firstn (S n) (x_wbuf s))])).
    { intro f'. destruct H as (H1 & H2 & H3). unfold conserved. cbn [x_s x_tls x_rbuf x_wbuf] in *.
      rewrite xread_app, xwritten_app, xgiven_app, xoutputs_app. cbn [xread xwritten xgiven xoutputs].
      rewrite !app_nil_r, <- app_assoc, firstn_skipn. auto. }
    cbn [x_wbuf] in E. destruct (skipn (S n) (x_wbuf s)) as [|y w] eqn:W.
    + destruct f; try (injection E as <- <-; apply K).
      destruct (sync T M fuel _ m) as [z k] eqn:E1. injection E as <- <-.
      change (XWrote (firstn (S n) (x_wbuf s)) :: k) with ([XWrote (firstn (S n) (x_wbuf s))] ++ k).
      eapply (sync_conserved s m FSelect l z k [XWrote (firstn (S n) (x_wbuf s))] (S n) [] H); auto.
      * rewrite app_nil_r, W. exact E1.
      * cbn [xwritten]. now rewrite app_nil_r.
    + injection E as <- <-. apply K.
  - destruct f; try (injection E as <- <-; exact Z).
    injection E as <- <-. destruct ok; eapply conserved_other; eauto.
  - destruct (pending f); injection E as <- <-; eapply conserved_other; eauto.
  - destruct f; try (injection E as <- <-; exact Z).
    destruct (m_call M m o) as [[m1 r]|]; injection E as <- <-; eapply conserved_other; eauto.
Qed.

Theorem plain_conserved : forall m acts x l,
  xrun T M fuel (XState (stream_insecure T) m FIdle) acts = (x, l) ->
  xwritten l ++ x_wbuf (x_s x) = xoutputs l /\ xread l = xgiven l ++ x_rbuf (x_s x).
Proof.
  intros m acts x l E.
  assert (C : conserved x l); [|now destruct C as (_ & C)].
  revert E. eapply (xrun_ind T M fuel conserved).
  - repeat split.
  - intros. eapply xstep_conserved; eauto.
Qed.
End Plain.

Lemma app_cons_split : forall {A} (l l' a b : list A) e, l ++ l' = a ++ e :: b ->
  (exists k, l = a ++ e :: k /\ b = k ++ l') \/ (exists k, a = l ++ k /\ l' = k ++ e :: b).
Proof.
  induction l as [|x l IH]; intros l' a b e H.
  - right. exists a. now split.
  - destruct a as [|y a]; cbn in H; injection H as -> H.
    + left. exists l. now split.
    + apply IH in H as [(k & -> & ->)|(k & -> & ->)]; [left|right]; exists k; now split.
Qed.

Section Steps.
Context (T : tls) (M : machine) (fuel : nat).
Notation xst := (xstate T M).

Lemma fail_log : forall (s : stream T) (m : m_st M) l r x' l',
  fail T M s m l r = (x', l') -> exists e, l' = l ++ [e] /\
    (e = XRet RetIo \/ e = XRet RetTls \/ e = XHang) /\ x_s x' = s /\ x_m x' = m /\
    (x_f x' = FIdle \/ x_f x' = FDead).
Proof.
  intros s m l r x' l' E. unfold fail in E.
  destruct r; injection E as <- <-; eexists; repeat split; auto.
Qed.

Lemma sync_input_log : forall (s : stream T) (m : m_st M) s1 m1 l1 r1,
  sync_input T M fuel s m = (s1, m1, l1, r1) ->
  x_wbuf s1 = x_wbuf s /\
  (m1 = Some m /\ l1 = [] \/ (exists b m', b <> [] /\ m_enqueue M m b = Some m' /\ l1 = [XGive b] /\
      m1 = Some m' /\ r1 = None) \/
     (m1 = None /\ l1 = [XPanic])).
Proof.
  intros s m s1 m1 l1 r1 E. unfold sync_input in E. destruct (x_tls s) as [t|].
  - destruct (decrypt T fuel t (x_rbuf s)) as [[t1 rb] [b| | |]];
      try (injection E as <- <- <- <-; cbn; auto; fail).
    destruct b as [|y b]; [injection E as <- <- <- <-; cbn; auto|].
    destruct (m_enqueue M m (y :: b)) as [m'|] eqn:E1; injection E as <- <- <- <-; split; auto.
    right. left. exists (y :: b), m'. repeat split; auto. discriminate.
  - destruct (x_rbuf s) as [|y b]; [injection E as <- <- <- <-; cbn; auto|].
    destruct (m_enqueue M m (y :: b)) as [m'|] eqn:E1; injection E as <- <- <- <-; split; auto.
    right. left. exists (y :: b), m'. repeat split; auto. discriminate.
Qed.

(** The log of one iteration: input, one call of [State::next], end of the future. *)
Lemma sync_log : forall (s : stream T) (m : m_st M) x' l',
  sync T M fuel s m = (x', l') ->
  exists li lr, (li = [] \/ exists b, b <> [] /\ li = [XGive b]) /\
    ((l' = li ++ lr /\ (lr = [XPanic] \/ exists e, lr = [e] /\ (e = XRet RetIo \/ e = XRet RetTls \/ e = XHang))) \/
     (exists r, l' = li ++ XNext r :: lr /\
       match r with
       | MEvent e => lr = [XRet (RetEvent e)] /\ x_f x' = FIdle
       | MError e => lr = [XRet (RetState e)] /\ x_f x' = FIdle
       | _ => (lr = [] /\ x_f x' = next_await T (x_s x')) \/
           exists e, lr = [e] /\ (e = XRet RetIo \/ e = XRet RetTls \/ e = XHang)
       end)).
Proof.
  intros s m x' l' E. unfold sync in E.
  destruct (sync_input T M fuel s m) as [[[s1 m1] l1] r1] eqn:D.
  apply sync_input_log in D as (_ & [(-> & ->)|[(b & m' & Hb & _ & -> & -> & ->)|(-> & ->)]]).
  - destruct r1 as [r1|].
    + apply fail_log in E as (e & -> & He & _). exists [], [e]. split; [now left|].
      left. split; [reflexivity|]. right. now exists e.
    + destruct (m_next M m) as [[m2 r]|].
      2:{ injection E as <- <-. exists [], [XPanic]. split; [now left|]. left. auto. }
      exists []. destruct r as [e| |b|e].
      * injection E as <- <-. exists [XRet (RetEvent e)]. split; [now left|]. right. eexists. split; [reflexivity|]. now split.
      * destruct (sync_output T fuel s1 []) as [s2 [e|]].
        -- apply fail_log in E as (e' & -> & He & _). exists [e']. split; [now left|]. right.
           eexists. split; [reflexivity|]. right. now exists e'.
        -- injection E as <- <-. exists []. split; [now left|]. right. eexists. split; [reflexivity|]. now left.
      * destruct (sync_output T fuel s1 b) as [s2 [e|]].
        -- apply fail_log in E as (e' & -> & He & _). exists [e']. split; [now left|]. right.
           eexists. split; [reflexivity|]. right. now exists e'.
        -- injection E as <- <-. exists []. split; [now left|]. right. eexists. split; [reflexivity|]. now left.
      * injection E as <- <-. exists [XRet (RetState e)]. split; [now left|]. right. eexists. split; [reflexivity|]. now split.
  - exists [XGive b]. cbn [app] in E. destruct (m_next M m') as [[m2 r]|].
    2:{ injection E as <- <-. exists [XPanic]. split; [right; now exists b|]. left. auto. }
    destruct r as [e| |c|e].
    + injection E as <- <-. exists [XRet (RetEvent e)]. split; [right; now exists b|]. right. eexists. split; [reflexivity|]. now split.
    + destruct (sync_output T fuel s1 []) as [s2 [e|]].
      * apply fail_log in E as (e' & -> & He & _). exists [e']. split; [right; now exists b|]. right.
        eexists. split; [reflexivity|]. right. now exists e'.
      * injection E as <- <-. exists []. split; [right; now exists b|]. right. eexists. split; [reflexivity|]. now left.
    + destruct (sync_output T fuel s1 c) as [s2 [e|]].
      * apply fail_log in E as (e' & -> & He & _). exists [e']. split; [right; now exists b|]. right.
        eexists. split; [reflexivity|]. right. now exists e'.
      * injection E as <- <-. exists []. split; [right; now exists b|]. right. eexists. split; [reflexivity|]. now left.
    + injection E as <- <-. exists [XRet (RetState e)]. split; [right; now exists b|]. right. eexists. split; [reflexivity|]. now split.
  - injection E as <- <-. exists [], [XPanic]. split; [now left|]. left. auto.
Qed.

(** What can occur in the log of an iteration. *)
Definition iter_entry (e : xlog M) : Prop :=
  match e with
  | XGive b => b <> []
  | XNext _ | XPanic | XHang => True
  | XRet r => r <> RetClosed /\ r <> RetFlushed
  | _ => False
  end.

Lemma failed_entry : forall e : xlog M, e = XRet RetIo \/ e = XRet RetTls \/ e = XHang -> iter_entry e.
Proof. intros e [->|[->| ->]]; cbn; auto; split; discriminate. Qed.

Lemma sync_entries : forall (s : stream T) (m : m_st M) x' l',
  sync T M fuel s m = (x', l') -> Forall iter_entry l'.
Proof.
  intros s m x' l' E. apply sync_log in E as (li & lr & Hi & Hr).
  assert (Fi : Forall iter_entry li).
  { destruct Hi as [->|(b & Hb & ->)]; auto. }
  destruct Hr as [(-> & Hr)|(r & -> & Hr)]; apply Forall_app; split; auto.
  - destruct Hr as [->|(e & -> & He)]; repeat constructor. now apply failed_entry.
  - constructor; [exact I|]. destruct r as [e| |b|e].
    + destruct Hr as (-> & _). repeat constructor; discriminate.
    + destruct Hr as [(-> & _)|(e & -> & He)]; repeat constructor. now apply failed_entry.
    + destruct Hr as [(-> & _)|(e & -> & He)]; repeat constructor. now apply failed_entry.
    + destruct Hr as (-> & _). repeat constructor; discriminate.
Qed.

Lemma in_xnexts : forall l r, In (XNext r) l -> xnexts (M := M) l <> [].
Proof.
  induction l as [|e l IH]; [easy|]. intros r [->|F]; [discriminate|].
  destruct e; cbn; eauto. discriminate.
Qed.

(** [State::next] is called at most once, after the input was provided. *)
Lemma sync_split : forall (s : stream T) (m : m_st M) x' k r l2,
  sync T M fuel s m = (x', k ++ XNext r :: l2) ->
  xnexts k = [] /\ xnexts l2 = [] /\ xgiven l2 = [].
Proof.
  intros s m x' k r l2 E. apply sync_log in E as (li & lr & Hi & Hr).
  assert (Ni : xnexts li = []) by (destruct Hi as [->|(b & _ & ->)]; reflexivity).
  destruct Hr as [(El & Hr)|(r' & El & Hr)].
  - exfalso. apply (f_equal xnexts) in El. rewrite !xnexts_app in El. cbn in El.
    assert (xnexts lr = []) as Nr by (destruct Hr as [->|(e & -> & [->|[->| ->]])]; reflexivity).
    rewrite Ni, Nr in El. now destruct (xnexts k).
  - assert (Nr : xnexts lr = [] /\ xgiven lr = []).
    { destruct r' as [e| |b|e].
      - now destruct Hr as (-> & _).
      - destruct Hr as [(-> & _)|(e & -> & [->|[->| ->]])]; auto.
      - destruct Hr as [(-> & _)|(e & -> & [->|[->| ->]])]; auto.
      - now destruct Hr as (-> & _). }
    apply app_cons_split in El as [(c & -> & ->)|(c & -> & E2)].
    + exfalso. rewrite !xnexts_app in Nr. cbn in Nr. destruct Nr as [Nr _].
      clear -Nr. now destruct (xnexts c).
    + destruct c as [|e c].
      * cbn in E2. injection E2 as _ ->. rewrite app_nil_r in Ni. intuition.
      * exfalso. cbn in E2. injection E2 as <- _.
        rewrite xnexts_app in Ni. cbn in Ni. now destruct (xnexts k).
Qed.

(** The log of a step. *)
Inductive step_log (x x' : xst) : list (xlog M) -> Prop :=
| SlgNone : x_s x' = x_s x -> step_log x x' []
| SlgFlush l : start_flush T M fuel (x_s x) (x_m x) = (x', l) ->
    Forall iter_entry l -> xnexts l = [] -> xgiven l = [] -> x_rbuf (x_s x') = x_rbuf (x_s x) ->
    step_log x x' (XStartFlush :: l)
| SlgSync h l s1 :
    sync T M fuel s1 (x_m x) = (x', l) ->
    (h = XStartNext /\ s1 = x_s x) \/
    (exists b, b <> [] /\ h = XRead b /\ reading (x_f x) = true /\
      s1 = StreamSt (x_tls (x_s x)) (x_rbuf (x_s x) ++ b) (x_wbuf (x_s x))) \/
    (x_wbuf (x_s x) <> [] /\ h = XWrote (x_wbuf (x_s x)) /\ x_f x = FSelect /\
      s1 = StreamSt (x_tls (x_s x)) (x_rbuf (x_s x)) []) ->
    step_log x x' (h :: l)
| SlgClosed e : e = XRead [] \/ e = XWrote [] -> x_s x' = x_s x -> x_f x' = FIdle ->
    step_log x x' [e; XRet RetClosed]
| SlgWrote n : 0 < n -> n <= length (x_wbuf (x_s x)) ->
    x_s x' = StreamSt (x_tls (x_s x)) (x_rbuf (x_s x)) (skipn n (x_wbuf (x_s x))) ->
    step_log x x' [XWrote (firstn n (x_wbuf (x_s x)))]
| SlgRet r : r = RetIo \/ (r = RetFlushed /\ x_f x = FFlushTcp) -> x_s x' = x_s x ->
    step_log x x' [XRet r]
| SlgOther e : e = XCancel \/ e = XPanic \/ (exists o r, e = XCall o r) -> x_s x' = x_s x ->
    step_log x x' [e].

Lemma xstep_log : forall (x : xst) a x' l', xstep T M fuel x a = (x', l') -> step_log x x' l'.
Proof.
  intros x a x' l' E. destruct a as [| |r|r|ok| |o]; cbn [xstep] in E.
  - destruct (x_f x); try (apply pair_equal_spec in E as [<- <-]; now constructor).
    destruct (sync T M fuel (x_s x) (x_m x)) as [y k] eqn:E1. apply pair_equal_spec in E as [<- <-].
    eapply SlgSync; eauto.
  - destruct (x_f x); try (apply pair_equal_spec in E as [<- <-]; now constructor).
    destruct (start_flush T M fuel (x_s x) (x_m x)) as [y k] eqn:E1. apply pair_equal_spec in E as [<- <-].
    assert (E' := E1). unfold start_flush in E1. destruct (x_tls (x_s x)) as [t|].
    + destruct (t_flush T t) as [t1|].
      * destruct (sync_output T fuel _ []) as [s2 o] eqn:E2.
        assert (R : x_rbuf s2 = x_rbuf (x_s x)).
        { unfold sync_output in E2. cbn [x_tls x_rbuf x_wbuf] in E2.
          destruct (encrypt T fuel t1 (x_wbuf (x_s x)) []) as [[t2 w] [u| | |]]; now injection E2 as <- _. }
        destruct o as [e|].
        -- apply fail_log in E1 as (e' & -> & He & Hs & _). apply SlgFlush; cbn.
           ++ exact E'.
           ++ repeat constructor. now apply failed_entry.
           ++ destruct He as [->|[->| ->]]; reflexivity.
           ++ destruct He as [->|[->| ->]]; reflexivity.
           ++ now rewrite Hs.
        -- injection E1 as <- <-. apply SlgFlush; auto.
      * injection E1 as <- <-. apply SlgFlush; auto. repeat constructor; discriminate.
    + injection E1 as <- <-. apply SlgFlush; auto.
  - destruct (reading (x_f x)) eqn:Rd; [|apply pair_equal_spec in E as [<- <-]; now constructor].
    destruct r as [[|b r]|].
    + apply pair_equal_spec in E as [<- <-]. apply SlgClosed; auto.
    + destruct (sync T M fuel _ (x_m x)) as [y k] eqn:E1. apply pair_equal_spec in E as [<- <-].
      eapply SlgSync; [exact E1|]. right. left. exists (b :: r). repeat split; auto. discriminate.
    + apply pair_equal_spec in E as [<- <-]. apply SlgRet; auto.
  - destruct (writing (x_f x)) eqn:Wr; [|apply pair_equal_spec in E as [<- <-]; now constructor].
    destruct r as [[|n]|]; try (apply pair_equal_spec in E as [<- <-]; constructor; auto; fail).
    destruct (Nat.leb_spec (S n) (length (x_wbuf (x_s x)))) as [Hn|Hn];
      [|apply pair_equal_spec in E as [<- <-]; now constructor].
    cbn [x_wbuf] in E. destruct (skipn (S n) (x_wbuf (x_s x))) as [|y w] eqn:W.
    + destruct (x_f x) eqn:F; try (apply pair_equal_spec in E as [<- <-]; apply (SlgWrote _ _ (S n)); [lia|exact Hn|cbn [x_s]; now rewrite W]).
      destruct (sync T M fuel _ (x_m x)) as [z k] eqn:E1. apply pair_equal_spec in E as [<- <-].
      assert (Q : firstn (S n) (x_wbuf (x_s x)) = x_wbuf (x_s x)).
      { rewrite <- (firstn_skipn (S n) (x_wbuf (x_s x))) at 2. now rewrite W, app_nil_r. }
      rewrite Q. eapply SlgSync; [exact E1|]. right. right. repeat split; auto.
      destruct (x_wbuf (x_s x)); [cbn in Hn; lia|discriminate].
    + apply pair_equal_spec in E as [<- <-]. apply (SlgWrote _ _ (S n)); [lia|exact Hn|cbn [x_s]; now rewrite W].
  - destruct (x_f x) eqn:F; try (apply pair_equal_spec in E as [<- <-]; now constructor).
    apply pair_equal_spec in E as [<- <-]. apply SlgRet; auto. destruct ok; auto.
  - destruct (pending (x_f x)); apply pair_equal_spec in E as [<- <-]; [apply SlgOther|apply SlgNone]; auto.
  - destruct (x_f x); try (apply pair_equal_spec in E as [<- <-]; now constructor).
    destruct (m_call M (x_m x) o) as [[m1 r]|]; apply pair_equal_spec in E as [<- <-]; apply SlgOther; auto.
    right. right. now exists o, r.
Qed.

(** Only [next] and [read]/[write] in [next] call [State::next], and once. *)
Lemma step_next : forall (x : xst) a x' k r l2,
  xstep T M fuel x a = (x', k ++ XNext r :: l2) ->
  xnexts k = [] /\ xnexts l2 = [] /\ xgiven l2 = [] /\ exists h k', k = h :: k' /\
    (h = XStartNext \/ (exists b, b <> [] /\ h = XRead b) \/
      (x_wbuf (x_s x) <> [] /\ h = XWrote (x_wbuf (x_s x)))) /\
    exists s1, sync T M fuel s1 (x_m x) = (x', k' ++ XNext r :: l2) /\ x_tls s1 = x_tls (x_s x).
Proof.
  intros x a x' k r l2 E. apply xstep_log in E.
  inversion E as [Hs E0|l ? Hl Hl' ? ? E0|h l s1 Es Hh E0|e He ? ? E0|n ? ? ? E0|rr ? ? E0|e He ? E0].
  - now destruct k.
  - exfalso. destruct k as [|h k]; cbn in E0; [discriminate|]. injection E0 as _ ->.
    rewrite xnexts_app in Hl'. cbn in Hl'. now destruct (xnexts k).
  - destruct k as [|h' k]; cbn in E0; injection E0 as E1 ->; subst h.
    { destruct Hh as [(F & _)|[(b & _ & F & _)|(_ & F & _)]]; discriminate F. }
    destruct (sync_split _ _ _ _ _ _ Es) as (N1 & N2 & N3). split; [|split; [exact N2|split; [exact N3|]]].
    + destruct Hh as [(-> & _)|[(b & _ & -> & _)|(_ & -> & _)]]; exact N1.
    + exists h', k. split; [reflexivity|]. split.
      * destruct Hh as [(-> & _)|[(b & Hb & -> & _)|(Hw & -> & _)]]; auto. right. left. now exists b.
      * exists s1. split; [exact Es|]. destruct Hh as [(_ & ->)|[(b & _ & _ & _ & ->)|(_ & _ & _ & ->)]]; reflexivity.
  - exfalso. destruct k as [|? [|? k]]; cbn in E0; injection E0; intros; subst.
    + destruct He; discriminate.
    + discriminate.
    + destruct k; discriminate.
  - exfalso. destruct k as [|? k]; cbn in E0; injection E0; intros; [subst; discriminate|now destruct k].
  - exfalso. destruct k as [|? k]; cbn in E0; injection E0; intros; [subst; discriminate|now destruct k].
  - exfalso. destruct k as [|? k]; cbn in E0; injection E0; intros; [subst|now destruct k].
    destruct He as [F|[F|(? & ? & F)]]; discriminate.
Qed.
End Steps.
