(** Proofs about the proxy: forwarding, and the [unwrap]s. *)
From Coq Require Import List NArith Bool PeanoNat Lia.
From Verif Require Import Base Types Codec Handle Receive ClientSend Client ServerSend Server
  SpecClient SpecServer Stream StreamMachine SpecStream StreamProofs StreamState
  ProxyUtil Proxy SpecProxy ProxyFilter ProxyEffect.
Import ListNotations.

(** ** Steps of a stream *)

Section Io.
Context (T : tls) (M : machine) (fuel : nat).

(** Entries before the end of a future. *)
Definition calm (e : xlog M) : Prop :=
  match e with
  | XCall _ _ | XRet _ | XCancel | XStartFlush => False
  | XNext (MEvent _) | XNext (MError _) => False
  | _ => True
  end.

Inductive ending : list (xlog M) -> option (sret M) -> Prop :=
| en_none : ending [] None
| en_lost : forall r, r = RetClosed \/ r = RetIo \/ r = RetTls -> ending [XRet r] (Some r)
| en_event : forall e, ending [XNext (MEvent e); XRet (RetEvent e)] (Some (RetEvent e))
| en_error : forall e, ending [XNext (MError e); XRet (RetState e)] (Some (RetState e)).

Lemma sync_shape : forall (s : stream T) (m : m_st M) x' l', sync T M fuel s m = (x', l') ->
  exists pre post r, l' = pre ++ post /\ Forall calm pre /\ ending post r.
Proof.
  intros s m x' l' E. apply sync_log in E as (li & lr & Hi & Hr).
  assert (Fi : Forall calm li) by (destruct Hi as [->|(b & _ & ->)]; repeat constructor).
  destruct Hr as [(-> & Hr)|(r & -> & Hr)].
  - destruct Hr as [->|(e & -> & [->|[->| ->]])].
    + exists (li ++ [XPanic]), [], None. rewrite app_nil_r. repeat split; [|constructor].
      apply Forall_app; split; [exact Fi|repeat constructor].
    + exists li, [XRet RetIo], (Some RetIo). repeat split; auto. constructor. auto.
    + exists li, [XRet RetTls], (Some RetTls). repeat split; auto. constructor. auto.
    + exists (li ++ [XHang]), [], None. rewrite app_nil_r. repeat split; [|constructor].
      apply Forall_app; split; [exact Fi|repeat constructor].
  - assert (G : match r with MEvent _ | MError _ => False | _ => True end ->
      (lr = [] \/ exists e, lr = [e] /\ (e = XRet RetIo \/ e = XRet RetTls \/ e = XHang)) ->
      exists pre post r0, li ++ XNext r :: lr = pre ++ post /\ Forall calm pre /\ ending post r0).
    { intros Q W. assert (Fr : Forall calm (li ++ [XNext r])).
      { apply Forall_app; split; [exact Fi|]. repeat constructor. cbn. destruct r; auto. }
      destruct W as [->|(e & -> & [->|[->| ->]])].
      - exists (li ++ [XNext r]), [], None. rewrite app_nil_r. repeat split; auto; constructor.
      - exists (li ++ [XNext r]), [XRet RetIo], (Some RetIo). rewrite <- app_assoc.
        repeat split; auto. constructor. auto.
      - exists (li ++ [XNext r]), [XRet RetTls], (Some RetTls). rewrite <- app_assoc.
        repeat split; auto. constructor. auto.
      - exists (li ++ [XNext r; XHang]), [], None. rewrite app_nil_r.
        split; [reflexivity|]. split; [|constructor].
        change [XNext r; XHang] with ([XNext r] ++ [@XHang M]). rewrite app_assoc.
        apply Forall_app; split; [exact Fr|repeat constructor]. }
    destruct r as [e| |b|e].
    + destruct Hr as [-> _]. exists li, [XNext (MEvent e); XRet (RetEvent e)], (Some (RetEvent e)).
      repeat split; auto. constructor.
    + apply G; [exact I|]. destruct Hr as [[-> _]|Hr]; auto.
    + apply G; [exact I|]. destruct Hr as [[-> _]|Hr]; auto.
    + destruct Hr as [-> _]. exists li, [XNext (MError e); XRet (RetState e)], (Some (RetState e)).
      repeat split; auto. constructor.
Qed.

Lemma returned_shape : forall pre post r, Forall calm pre -> ending post r ->
  returned (pre ++ post) = r.
Proof.
  intros pre post r H. induction H as [|e pre He H IH]; intro En; cbn.
  - destruct En; reflexivity.
  - destruct e; cbn in He; try contradiction; auto.
Qed.

Lemma io_shape : forall x a x' l', xstep T M fuel x (io_act M a) = (x', l') ->
  exists pre post, l' = pre ++ post /\ Forall calm pre /\ ending post (returned l').
Proof.
  intros x a x' l' E.
  enough (G : exists pre post r, l' = pre ++ post /\ Forall calm pre /\ ending post r).
  { destruct G as (pre & post & r & -> & G1 & G2). exists pre, post.
    rewrite (returned_shape pre post r); auto. }
  assert (N : exists pre post r, [] = pre ++ post /\ Forall calm pre /\ ending post r).
  { exists [], [], None. repeat split; constructor. }
  assert (C : forall h l, calm h -> (exists pre post r, l = pre ++ post /\ Forall calm pre /\ ending post r) ->
    exists pre post r, h :: l = pre ++ post /\ Forall calm pre /\ ending post r).
  { intros h l Hh (pre & post & r & -> & G1 & G2). exists (h :: pre), post, r. repeat split; auto. }
  assert (L : forall r, r = RetClosed \/ r = RetIo \/ r = RetTls ->
    exists pre post r0, [XRet r] = pre ++ post /\ Forall calm pre /\ ending post r0).
  { intros r Hr. exists [], [XRet r], (Some r). repeat split; auto. now constructor. }
  destruct a as [|r|r]; cbn [io_act xstep] in E.
  - destruct (x_f x); try (injection E as _ <-; exact N).
    destruct (sync T M fuel (x_s x) (x_m x)) as [y k] eqn:S. injection E as _ <-.
    apply C; [exact I|]. eapply sync_shape; eauto.
  - destruct (reading (x_f x)); [|injection E as _ <-; exact N].
    destruct r as [[|b r]|].
    + injection E as _ <-. apply C; [exact I|]. apply L. auto.
    + destruct (sync T M fuel _ (x_m x)) as [y k] eqn:S. injection E as _ <-.
      apply C; [exact I|]. eapply sync_shape; eauto.
    + injection E as _ <-. apply L. auto.
  - destruct (writing (x_f x)); [|injection E as _ <-; exact N].
    destruct r as [[|n]|].
    + injection E as _ <-. apply C; [exact I|]. apply L. auto.
    + destruct (Nat.leb (S n) (length (x_wbuf (x_s x)))); [|injection E as _ <-; exact N].
      cbn [x_wbuf] in E. destruct (skipn (S n) (x_wbuf (x_s x))).
      * destruct (x_f x); try (apply pair_equal_spec in E as [_ <-]; apply C; [exact I|exact N]).
        destruct (sync T M fuel _ (x_m x)) as [y k] eqn:S. apply pair_equal_spec in E as [_ <-].
        apply C; [exact I|]. eapply sync_shape; eauto.
      * apply pair_equal_spec in E as [_ <-]. apply C; [exact I|exact N].
    + injection E as _ <-. apply L. auto.
Qed.

(** A future that is ready is gone. *)
Lemma returned_app : forall (a b : list (xlog M)), returned a = None -> returned (a ++ b) = returned b.
Proof. induction a as [|e a IH]; intros b H; [reflexivity|]. destruct e; cbn in *; auto; discriminate. Qed.

Lemma sync_idle : forall (s : stream T) (m : m_st M) x' l', sync T M fuel s m = (x', l') ->
  returned l' <> None -> x_f x' = FIdle.
Proof.
  intros s m x' l' E. unfold sync in E.
  destruct (sync_input T M fuel s m) as [[[s1 m1] l1] r1] eqn:D.
  assert (A : returned l1 = None).
  { unfold sync_input in D. destruct (x_tls s) as [t|].
    - destruct (decrypt T fuel t (x_rbuf s)) as [[t1 rb] [[|c b]| | |]];
        try (injection D as _ _ <- _; reflexivity).
      destruct (m_enqueue M m (c :: b)); injection D as _ _ <- _; reflexivity.
    - destruct (x_rbuf s) as [|c b]; [injection D as _ _ <- _; reflexivity|].
      destruct (m_enqueue M m (c :: b)); injection D as _ _ <- _; reflexivity. }
  assert (F : forall s2 m2 l2 r, returned l2 = None -> fail T M s2 m2 l2 r = (x', l') ->
    returned l' <> None -> x_f x' = FIdle).
  { intros s2 m2 l2 r H H1 H2. unfold fail in H1.
    destruct r; apply pair_equal_spec in H1 as [<- <-]; cbn; auto; contradiction H2; now rewrite returned_app. }
  destruct m1 as [m1|]; [|injection E as <- <-; congruence].
  destruct r1 as [r1|]; [now apply (F _ _ _ _ A E)|].
  destruct (m_next M m1) as [[m2 r]|].
  2:{ injection E as <- <-. rewrite returned_app by exact A. cbn. congruence. }
  assert (A2 : returned (l1 ++ [XNext r]) = None) by now rewrite returned_app.
  destruct r.
  - injection E as <- <-. reflexivity.
  - destruct (sync_output T fuel s1 []) as [s2 [e|]]; [now apply (F _ _ _ _ A2 E)|].
    injection E as <- <-. congruence.
  - destruct (sync_output T fuel s1 b) as [s2 [e|]]; [now apply (F _ _ _ _ A2 E)|].
    injection E as <- <-. congruence.
  - injection E as <- <-. reflexivity.
Qed.

Lemma io_idle : forall x a x' l', xstep T M fuel x (io_act M a) = (x', l') ->
  returned l' <> None -> x_f x' = FIdle.
Proof.
  intros x a x' l' E.
  destruct a as [|r|r]; cbn [io_act xstep] in E.
  - destruct (x_f x); try (injection E as _ <-; cbn; congruence).
    destruct (sync T M fuel (x_s x) (x_m x)) as [y k] eqn:S. injection E as <- <-.
    cbn. eapply sync_idle; eauto.
  - destruct (reading (x_f x)); [|injection E as _ <-; cbn; congruence].
    destruct r as [[|b r]|].
    + injection E as <- <-. reflexivity.
    + destruct (sync T M fuel _ (x_m x)) as [y k] eqn:S. injection E as <- <-.
      cbn. eapply sync_idle; eauto.
    + injection E as <- <-. reflexivity.
  - destruct (writing (x_f x)); [|injection E as _ <-; cbn; congruence].
    destruct r as [[|n]|].
    + injection E as <- <-. reflexivity.
    + destruct (Nat.leb (S n) (length (x_wbuf (x_s x)))); [|injection E as _ <-; cbn; congruence].
      cbn [x_wbuf] in E. destruct (skipn (S n) (x_wbuf (x_s x))).
      * destruct (x_f x); try (apply pair_equal_spec in E as [_ <-]; cbn; congruence).
        destruct (sync T M fuel _ (x_m x)) as [y k] eqn:S. apply pair_equal_spec in E as [<- <-].
        cbn. eapply sync_idle; eauto.
      * apply pair_equal_spec in E as [_ <-]. cbn. congruence.
    + injection E as <- <-. reflexivity.
Qed.

(** A future that never returns has panicked, or hangs. *)
Lemma sync_dead : forall (s : stream T) (m : m_st M) x' l', sync T M fuel s m = (x', l') ->
  x_f x' = FDead -> In XPanic l' \/ In XHang l'.
Proof.
  intros s m x' l' E D. unfold sync in E.
  destruct (sync_input T M fuel s m) as [[[s1 m1] l1] r1] eqn:I.
  assert (A : m1 = None -> In XPanic l1).
  { unfold sync_input in I. destruct (x_tls s) as [t|].
    - destruct (decrypt T fuel t (x_rbuf s)) as [[t1 rb] [[|c b]| | |]];
        try (injection I as _ <- <- _; discriminate).
      destruct (m_enqueue M m (c :: b)); injection I as _ <- <- _; [discriminate|cbn; auto].
    - destruct (x_rbuf s) as [|c b]; [injection I as _ <- <- _; discriminate|].
      destruct (m_enqueue M m (c :: b)); injection I as _ <- <- _; [discriminate|cbn; auto]. }
  assert (F : forall s2 m2 l2 r, fail T M s2 m2 l2 r = (x', l') -> In XPanic l' \/ In XHang l').
  { intros s2 m2 l2 r H1. unfold fail in H1.
    destruct r; apply pair_equal_spec in H1 as [<- <-]; try discriminate D; right; apply in_or_app; cbn; auto. }
  destruct m1 as [m1|]; [|injection E as <- <-; auto].
  destruct r1 as [r1|]; [now apply F in E|].
  destruct (m_next M m1) as [[m2 r]|].
  2:{ injection E as <- <-. left. apply in_or_app. cbn. auto. }
  assert (NA : forall s3, next_await T s3 <> FDead) by (intro s3; unfold next_await; destruct (x_wbuf s3); discriminate).
  destruct r.
  - injection E as <- <-. discriminate.
  - destruct (sync_output T fuel s1 []) as [s2 [e|]]; [now apply F in E|].
    injection E as <- <-. now apply NA in D.
  - destruct (sync_output T fuel s1 b) as [s2 [e|]]; [now apply F in E|].
    injection E as <- <-. now apply NA in D.
  - injection E as <- <-. discriminate.
Qed.

Lemma io_dead : forall x a x' l', xstep T M fuel x (io_act M a) = (x', l') ->
  x_f x <> FDead -> x_f x' = FDead -> In XPanic l' \/ In XHang l'.
Proof.
  intros x a x' l' E N D.
  destruct a as [|r|r]; cbn [io_act xstep] in E.
  - destruct (x_f x) eqn:F; try (injection E as <- <-; congruence).
    destruct (sync T M fuel (x_s x) (x_m x)) as [y k] eqn:S. injection E as <- <-.
    cbn. eapply sync_dead in S; tauto.
  - destruct (reading (x_f x)); [|injection E as <- <-; congruence].
    destruct r as [[|b r]|].
    + injection E as <- <-. discriminate.
    + destruct (sync T M fuel _ (x_m x)) as [y k] eqn:S. injection E as <- <-.
      cbn. eapply sync_dead in S; tauto.
    + injection E as <- <-. discriminate.
  - destruct (writing (x_f x)) eqn:W; [|injection E as <- <-; congruence].
    destruct r as [[|n]|].
    + injection E as <- <-. discriminate.
    + destruct (Nat.leb (S n) (length (x_wbuf (x_s x)))); [|injection E as <- <-; congruence].
      cbn [x_wbuf] in E. destruct (skipn (S n) (x_wbuf (x_s x))).
      * destruct (x_f x); try discriminate W; try (apply pair_equal_spec in E as [<- <-]; cbn in D; congruence).
        destruct (sync T M fuel _ (x_m x)) as [y k] eqn:S. apply pair_equal_spec in E as [<- <-].
        cbn. eapply sync_dead in S; tauto.
      * apply pair_equal_spec in E as [<- <-]. cbn in D. congruence.
    + injection E as <- <-. discriminate.
Qed.

Lemma cancel_step : forall x x' l', xstep T M fuel x ACancel = (x', l') ->
  x_s x' = x_s x /\ x_m x' = x_m x /\ (x_f x <> FDead -> x_f x' = FIdle) /\
  (l' = [] \/ l' = [XCancel]).
Proof.
  intros x x' l' E. cbn in E. destruct (pending (x_f x)) eqn:P; apply pair_equal_spec in E as [<- <-].
  - repeat split; auto.
  - repeat split; auto. intro F. destruct (x_f x); try discriminate; congruence.
Qed.
End Io.
Arguments calm {M} e. Arguments ending {M} l r.

(** ** Effects in streams *)

Section Effects.
Context (K : Codecs).
Notation SM := (server_machine K).
Notation CM := (client_machine K).

Inductive xeff : list special -> xlog CM -> list special -> Prop :=
| xf_call : forall sp o r sp', eff sp r sp' -> xeff sp (@XCall CM o r) sp'
| xf_event : forall sp e sp', eff sp (ClNext (IEvent e)) sp' -> xeff sp (@XNext CM (MEvent e)) sp'
| xf_next : forall sp r, (forall e, r <> MEvent e) -> xeff sp (@XNext CM r) sp
| xf_give : forall sp b, xeff sp (XGive b) sp.
Inductive xeffs : list special -> list (xlog CM) -> list special -> Prop :=
| xfs_nil : forall sp, xeffs sp [] sp
| xfs_cons : forall sp e sp1 l sp2, xeff sp e sp1 -> xeffs sp1 l sp2 -> xeffs sp (e :: l) sp2.

Lemma effs_view : forall sp l sp', effs sp l sp' -> ~ In ClPanic l ->
  xeffs sp (flat_map (@client_view K) l) sp'.
Proof.
  intros sp l sp' H. induction H as [sp|sp e sp1 l sp2 He H IH]; intro P; [constructor|].
  assert (P1 : ~ In ClPanic l) by (intro F; apply P; now right).
  specialize (IH P1). destruct e as [c h|x|d r|r|m|r|]; cbn.
  - econstructor; [|exact IH]. now constructor.
  - econstructor; [|exact IH]. inversion He; subst. constructor.
  - econstructor; [|exact IH]. now constructor.
  - econstructor; [|exact IH]. now constructor.
  - inversion He; subst. exact IH.
  - destruct r as [e| | |b|e| |]; cbn; try (inversion He; subst; exact IH).
    + econstructor; [|exact IH]. now constructor.
    + econstructor; [|exact IH]. inversion He; subst. now constructor.
    + econstructor; [|exact IH]. inversion He; subst. now constructor.
    + econstructor; [|exact IH]. inversion He; subst. now constructor.
  - exfalso. apply P. now left.
Qed.

Lemma xeffs_app : forall sp l1 sp1 l2 sp2, xeffs sp l1 sp1 -> xeffs sp1 l2 sp2 -> xeffs sp (l1 ++ l2) sp2.
Proof. intros sp l1 sp1 l2 sp2 H. induction H; cbn; [auto|]. intro. econstructor; eauto. Qed.

Lemma client_step_no_panic_entry : forall c p c' l, client_step K c p = (Some c', l) -> ~ In ClPanic l.
Proof.
  intros c p c' l H. destruct p; unfold client_step in H.
  - destruct (client_enqueue_command c c0). injection H as _ <-. intros [F|[]]; discriminate.
  - destruct (client_enqueue_input c x); [|discriminate]. injection H as _ <-. intros [F|[]]; discriminate.
  - destruct (client_set_authenticate_data K c d) as [[? ?]|]; [|discriminate]. injection H as _ <-. intros [F|[]]; discriminate.
  - destruct (client_set_idle_done K c) as [[? ?]|]; [|discriminate]. injection H as _ <-. intros [F|[]]; discriminate.
  - destruct (client_next K c) as [[c1 g] r]. destruct (c_is_panic r); [discriminate|]. injection H as _ <-.
    intro F. apply in_app_or in F as [F|[F|[]]]; [|discriminate]. apply in_map_iff in F as (x & F & _). discriminate.
Qed.

(** The greeting of the client. *)
Definition xgreet_step (b : bool) (e : xlog CM) : bool :=
  match e with XNext (MEvent e) => greet_step b (ClNext (IEvent e)) | _ => b end.
Definition xgreets (b : bool) (e : xlog CM) : Prop :=
  match e with
  | XNext (MEvent e) => greets b (ClNext (IEvent e))
  | XNext (MOutput _) => b = true
  | _ => True
  end.
Fixpoint xgreet (b : bool) (l : list (xlog CM)) : Prop :=
  match l with
  | [] => True
  | e :: l' => xgreets b e /\ xgreet (xgreet_step b e) l'
  end.

Lemma xgreet_app : forall l1 l2 b, xgreet b (l1 ++ l2) <->
  xgreet b l1 /\ xgreet (fold_left xgreet_step l1 b) l2.
Proof. induction l1 as [|e l1 IH]; cbn; intros l2 b; [tauto|]. rewrite IH. tauto. Qed.

Lemma view_greet : forall l b, fold_left xgreet_step (flat_map (@client_view K) l) b = fold_left greet_step l b.
Proof.
  induction l as [|e l IH]; intro b; [reflexivity|]. cbn [flat_map].
  rewrite fold_left_app. cbn [fold_left]. rewrite <- IH. f_equal.
  destruct e as [r h|x|q r|r|m|r|]; try reflexivity. destruct r; reflexivity.
Qed.

Lemma view_xgreet : forall l b, greet b l -> xgreet b (flat_map (@client_view K) l).
Proof.
  induction l as [|e l IH]; intros b H; [exact I|]. cbn [flat_map]. destruct H as [H1 H2].
  apply xgreet_app. destruct e as [r h|x|q r|r|m|r|]; try (cbn; auto; fail).
  destruct r; cbn in *; auto.
Qed.

Lemma cgood_calls : forall cs c b c' l, cgood K false c b -> call_run CM c cs = Some (c', l) ->
  cgood K false c' (fold_left xgreet_step l b) /\ xgreet b l /\
  xeffs (specials (c_send c)) l (specials (c_send c')).
Proof.
  induction cs as [|o cs IH]; intros c b c' l G E; cbn [call_run] in E.
  - injection E as <- <-. split; [exact G|]. split; [exact I|constructor].
  - destruct (call_step CM c o) as [[c1 e]|] eqn:S; [|discriminate].
    destruct (call_run CM c1 cs) as [[c2 l2]|] eqn:R; [|discriminate].
    injection E as <- <-. apply client_call_step in S as (l1 & S & V).
    pose proof (client_step_no_panic_entry _ _ _ _ S) as P.
    destruct (cgood_step K false c b _ c1 l1 G S) as (G1 & G2 & F).
    apply effs_view in F; auto. rewrite V in F.
    rewrite <- view_greet, V in G1. apply view_xgreet in G2. rewrite V in G2.
    destruct (IH _ _ _ _ G1 R) as (H1 & H2 & H3). cbn [fold_left xgreet].
    split; [exact H1|]. split; [split; [apply G2|exact H2]|].
    change (e :: l2) with ([e] ++ l2). eapply xeffs_app; eauto.
Qed.

(** The mode of the server. *)
Definition xmode_step (m : expected) (e : xlog SM) : expected :=
  match e with
  | XCall _ r => smode_step m r
  | XNext (MEvent e) => smode_step m (SlNext (IEvent e))
  | _ => m
  end.

Lemma view_mode : forall l m, fold_left xmode_step (flat_map (@server_view K) l) m = fold_left smode_step l m.
Proof.
  induction l as [|e l IH]; intro m; [reflexivity|]. cbn [flat_map].
  rewrite fold_left_app. cbn [fold_left]. rewrite <- IH. f_equal.
  destruct e as [r h|x|q r|t r|q r|t r|x|r|]; try reflexivity.
  destruct r; reflexivity.
Qed.

Definition xexpects (m : expected) (e : xlog SM) : Prop :=
  match e with XNext (MEvent e) => expects m (SlNext (IEvent e)) | _ => True end.
Fixpoint xexpect (m : expected) (l : list (xlog SM)) : Prop :=
  match l with
  | [] => True
  | e :: l' => xexpects m e /\ xexpect (xmode_step m e) l'
  end.

Lemma xexpect_app : forall l1 l2 m, xexpect m (l1 ++ l2) <->
  xexpect m l1 /\ xexpect (fold_left xmode_step l1 m) l2.
Proof. induction l1 as [|e l1 IH]; cbn; intros l2 m; [tauto|]. rewrite IH. tauto. Qed.

Lemma view_expect : forall l m, expect m l -> xexpect m (flat_map (@server_view K) l).
Proof.
  induction l as [|e l IH]; intros m H; [exact I|]. cbn [flat_map]. destruct H as [H1 H2].
  apply xexpect_app. destruct e as [r h|x|q r|t r|q r|t r|x|r|]; try (cbn; auto; fail).
  destruct r; cbn in *; auto.
Qed.

Lemma sgood_calls : forall o cs s m s' l, sgood K o s m -> call_run SM s cs = Some (s', l) ->
  sgood K o s' (fold_left xmode_step l m) /\ xexpect m l.
Proof.
  intros o. induction cs as [|p cs IH]; intros s m s' l G E; cbn [call_run] in E.
  - injection E as <- <-. split; [exact G|exact I].
  - destruct (call_step SM s p) as [[s1 e]|] eqn:S; [|discriminate].
    destruct (call_run SM s1 cs) as [[s2 l2]|] eqn:R; [|discriminate].
    injection E as <- <-. cbn [fold_left xexpect]. apply server_call_step in S as (l1 & S & V).
    pose proof (sgood_step K o s m _ s1 l1 G S) as G1.
    rewrite <- view_mode, V in G1. cbn [fold_left] in G1.
    pose proof (sgood_expect K o s m _ s1 l1 G S) as G2. apply view_expect in G2. rewrite V in G2.
    destruct (IH _ _ _ _ G1 R) as [H1 H2]. split; [exact H1|]. split; [apply G2|exact H2].
Qed.
End Effects.

(** ** Effects of the steps of the proxy *)

Section Steps.
Context (K : Codecs) (T : tls) (fuel : nat).
Notation SM := (server_machine K).
Notation CM := (client_machine K).

Lemma calm_entries : forall M (l : list (xlog M)), Forall calm l -> Forall calm (call_entries l).
Proof. intros M l H. induction H as [|e l He H IH]; [constructor|]. destruct e; cbn; auto. Qed.

Lemma calm_mode : forall (l : list (xlog SM)) m, Forall calm l -> fold_left (xmode_step K) l m = m.
Proof.
  intros l m H. revert m. induction H as [|e l He H IH]; intro m; [reflexivity|]. cbn [fold_left].
  rewrite IH. destruct e; try reflexivity; cbn in He; try contradiction.
  destruct r; try contradiction; reflexivity.
Qed.

Lemma calm_greet : forall (l : list (xlog CM)) b, Forall calm l -> fold_left (xgreet_step K) l b = b.
Proof.
  intros l m H. revert m. induction H as [|e l He H IH]; intro m; [reflexivity|]. cbn [fold_left].
  rewrite IH. destruct e; try reflexivity; cbn in He; try contradiction.
  destruct r; try contradiction; reflexivity.
Qed.

Lemma xeffs_inv : forall e l sp sp2, xeffs K sp (e :: l) sp2 ->
  exists sp1, xeff K sp e sp1 /\ xeffs K sp1 l sp2.
Proof. intros e l sp sp2 H. inversion H; subst. eauto. Qed.

Lemma xeffs_nil : forall sp sp2, xeffs K sp [] sp2 -> sp2 = sp.
Proof. intros sp sp2 H. inversion H; subst. reflexivity. Qed.

Lemma xeffs_split : forall l1 l2 sp sp2, xeffs K sp (l1 ++ l2) sp2 ->
  exists sp1, xeffs K sp l1 sp1 /\ xeffs K sp1 l2 sp2.
Proof.
  induction l1 as [|e l1 IH]; cbn; intros l2 sp sp2 H; [exists sp; split; [constructor|exact H]|].
  apply xeffs_inv in H as (sp0 & H1 & H). apply IH in H as (sp3 & H2 & H3).
  exists sp3. split; [|exact H3]. econstructor; eauto.
Qed.

Lemma calm_effs : forall (l : list (xlog CM)) sp sp', Forall calm l -> xeffs K sp l sp' -> sp' = sp.
Proof.
  intros l sp sp' H. revert sp. induction H as [|e l He H IH]; intros sp X.
  - now apply xeffs_nil in X.
  - apply xeffs_inv in X as (sp1 & X1 & X). apply IH in X. subst sp'.
    inversion X1; subst; cbn in He; try contradiction; auto.
Qed.

Lemma server_io : forall o (c : xstate T SM) m a c1 l1, sgood K o (x_m c) m ->
  xstep T SM fuel c (io_act SM a) = (c1, l1) ->
  match returned l1 with
  | Some (RetEvent e) =>
      sgood K o (x_m c1) (smode_step m (SlNext (IEvent (e : sevent)))) /\ expects m (SlNext (IEvent (e : sevent)))
  | _ => sgood K o (x_m c1) m
  end.
Proof.
  intros o c m a c1 l1 G E. pose proof (xstep_fair _ _ _ _ _ _ _ E) as [F _].
  apply io_shape in E as (pre & post & El & Hp & He). unfold moves in F.
  apply (sgood_calls K o _ _ m) in F as [F1 F2]; [|exact G].
  rewrite El, call_entries_app in F1, F2. apply xexpect_app in F2 as [_ F2].
  rewrite fold_left_app, (calm_mode (call_entries pre)) in F1 by now apply calm_entries.
  rewrite (calm_mode (call_entries pre)) in F2 by now apply calm_entries.
  destruct He as [|r Hr|e|e]; cbn in F1, F2; auto.
  - destruct Hr as [->|[->| ->]]; auto.
  - split; [exact F1|apply F2].
Qed.

Lemma client_io : forall (s : xstate T CM) b a s1 l1, cgood K false (x_m s) b ->
  xstep T CM fuel s (io_act CM a) = (s1, l1) ->
  match returned l1 with
  | Some (RetEvent e) =>
      cgood K false (x_m s1) true /\ greets b (ClNext (IEvent (e : cevent))) /\
      eff (specials (c_send (x_m s))) (ClNext (IEvent (e : cevent))) (specials (c_send (x_m s1)))
  | _ => cgood K false (x_m s1) b /\ specials (c_send (x_m s1)) = specials (c_send (x_m s))
  end.
Proof.
  intros s b a s1 l1 G E. pose proof (xstep_fair _ _ _ _ _ _ _ E) as [F _].
  apply io_shape in E as (pre & post & El & Hp & He). unfold moves in F.
  apply (cgood_calls K _ _ b) in F as (F1 & F2 & F3); [|exact G].
  rewrite El, call_entries_app in F1, F2, F3. apply xgreet_app in F2 as [_ F2].
  rewrite fold_left_app, (calm_greet (call_entries pre)) in F1 by now apply calm_entries.
  rewrite (calm_greet (call_entries pre)) in F2 by now apply calm_entries.
  apply xeffs_split in F3 as (sp1 & F3 & F4). apply calm_effs in F3; [|now apply calm_entries]. subst sp1.
  destruct He as [|r Hr|e|e]; cbn in F1, F2, F4.
  - apply xeffs_nil in F4. auto.
  - apply xeffs_nil in F4. destruct Hr as [->|[->| ->]]; auto.
  - apply xeffs_inv in F4 as (sp1 & X & F4). apply xeffs_nil in F4. rewrite F4. clear F4.
    inversion X as [|? ? ? Xe|? ? Xn|]; subst; [|now contradiction (Xn e)].
    split; [|split; [apply F2|assumption]].
    destruct F2 as [F2 _]. replace true with (greet_step b (ClNext (IEvent e))); [exact F1|].
    destruct e; cbn in *; congruence.
  - apply xeffs_inv in F4 as (sp1 & X & F4). apply xeffs_nil in F4. rewrite F4.
    inversion X; subst. auto.
Qed.

Lemma server_call_effect : forall o s m p s' e, sgood K o s m -> m_call SM s p = Some (s', e) ->
  sgood K o s' (smode_step m e) /\
  match p with
  | SaEnqueue r => exists h, e = SlEnqueue r h
  | SaAuthenticateContinue q =>
      exists r, e = SlAuthContinue q r /\ call_result (expected_eqb m ExAuthenticateData) q r
  | SaAuthenticateFinish t =>
      exists r, e = SlAuthFinish t r /\ call_result (expected_eqb m ExAuthenticateData) t r
  | SaIdleAccept q => exists r, e = SlIdleAccept q r /\ call_result (expected_eqb m ExIdleAccept) q r
  | SaIdleReject t => exists r, e = SlIdleReject t r /\ call_result (expected_eqb m ExIdleAccept) t r
  end.
Proof.
  intros o s m p s' e G E. cbn [m_call server_machine] in E.
  destruct (server_step K s (sapp_op p)) as [os le] eqn:S. destruct os as [s1|]; [|discriminate].
  destruct le as [|e1 [|? ?]]; try discriminate. injection E as <- <-.
  split; [exact (sgood_step K o s m _ s1 [e1] G S)|].
  pose proof (sgood_call K o s m _ s1 e1 G S) as C.
  apply sapp_log in S as (e2 & S1 & S2). injection S1 as <-.
  apply (f_equal (fun l : list (xlog SM) =>
    match l with [@XCall _ o _] => Some (o : sapp) | _ => None end)) in S2.
  destruct e1; cbn in S2; try discriminate; try (destruct (mres_of r); discriminate);
    injection S2 as <-; eauto.
Qed.

Lemma client_call_effect : forall c b p c' e, cgood K false c b -> m_call CM c p = Some (c', e) ->
  cgood K false c' b /\ eff (specials (c_send c)) e (specials (c_send c')) /\
  match p with
  | CaEnqueueCommand cmd => exists h, e = ClEnqueue cmd h
  | CaSetAuthenticateData d => exists r, e = ClSetAuth d r
  | CaSetIdleDone => exists r, e = ClSetDone r
  end.
Proof.
  intros c b p c' e G E. cbn [m_call client_machine] in E.
  destruct (client_step K c (capp_op p)) as [oc le] eqn:S. destruct oc as [c1|]; [|discriminate].
  destruct le as [|e1 [|? ?]]; try discriminate. injection E as <- <-.
  destruct (cgood_step K false c b _ c1 [e1] G S) as (G1 & G2 & F).
  assert (X : eff (specials (c_send c)) e1 (specials (c_send c1))).
  { inversion F as [|? ? sp1 ? ? X Y]; subst. inversion Y; subst. exact X. }
  assert (Q : match p with
    | CaEnqueueCommand cmd => exists h, e1 = ClEnqueue cmd h
    | CaSetAuthenticateData d => exists r, e1 = ClSetAuth d r
    | CaSetIdleDone => exists r, e1 = ClSetDone r end).
  { destruct p; cbn in S.
    - destruct (client_enqueue_command c c0). injection S as _ <-. eauto.
    - destruct (client_set_authenticate_data K c d) as [[? ?]|]; [|discriminate]. injection S as _ <-. eauto.
    - destruct (client_set_idle_done K c) as [[? ?]|]; [|discriminate]. injection S as _ <-. eauto. }
  split; [|split; [exact X|exact Q]]. destruct p; destruct Q as [? ->]; exact G1.
Qed.
End Steps.
