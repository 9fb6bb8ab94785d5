(** Two streams connected by a network: conservation and causality of the bytes. *)
From Coq Require Import List NArith Bool PeanoNat Lia.
From Verif Require Import Base Stream SpecStream StreamProofs StreamThms StreamTls StreamTlsSend Net SpecNet.
Import ListNotations.

Lemma prefix_refl : forall A (a : list A), prefix a a.
Proof. intros. exists []. now rewrite app_nil_r. Qed.
Lemma prefix_nil : forall A (a : list A), prefix [] a.
Proof. intros. now exists a. Qed.
Lemma prefix_app : forall A (a b c : list A), prefix a b -> prefix a (b ++ c).
Proof. intros A a b c (d & ->). exists (d ++ c). now rewrite app_assoc. Qed.
Lemma prefix_trans : forall A (a b c : list A), prefix a b -> prefix b c -> prefix a c.
Proof. intros A a b c (d & ->) (e & ->). exists (d ++ e). now rewrite app_assoc. Qed.
Lemma prefix_self : forall A (a b : list A), prefix a (a ++ b).
Proof. intros. now exists b. Qed.

(** ** The read buffer of a stream with TLS *)

Section Rbuf.
Context (T : tls) (M : machine) (fuel : nat) (dec : t_st T -> bytes -> bytes)
  (Law : tls_receives T dec).

Lemma sync_rbuf : forall (s : stream T) (m : m_st M) t x' l',
  x_tls s = Some t -> ready T dec t -> sync T M fuel s m = (x', l') ->
  no_error l' -> x_f x' <> FDead -> x_rbuf (x_s x') = [].
Proof.
  intros s m t x' l' Ht Hr E (N1 & N2) D. unfold sync in E.
  destruct (sync_input T M fuel s m) as [[[s1 m1] l1] r1] eqn:I.
  assert (Fl : forall s2 m2 l2 r, fail T M s2 m2 l2 r = (x', l') -> False).
  { intros s2 m2 l2 r F. unfold fail in F. destruct r; apply pair_equal_spec in F as [<- <-].
    - now contradiction D.
    - apply N1. rewrite xrets_app. apply in_or_app. right. now left.
    - apply N2. rewrite xrets_app. apply in_or_app. right. now left.
    - now contradiction D. }
  destruct m1 as [m1|]; [|injection E as <- <-; now contradiction D].
  destruct r1 as [r1|]; [now apply Fl in E|].
  apply (sync_input_tls T M fuel dec Law _ _ t) in I as (t1 & I1 & I2 & I3 & _); auto.
  destruct (m_next M m1) as [[m2 r]|]; [|injection E as <- <-; now contradiction D].
  assert (IO : forall b, match sync_output T fuel s1 b with
    | (s2, None) => (XState s2 m2 (next_await T s2), l1 ++ [XNext r])
    | (s2, Some e) => fail T M s2 m2 (l1 ++ [XNext r]) e
    end = (x', l') -> x_rbuf (x_s x') = []).
  { intros b Eb. destruct (sync_output T fuel s1 b) as [s2 [e|]] eqn:O; [now apply Fl in Eb|].
    injection Eb as <- <-. apply (sync_output_tls T fuel dec Law _ t1) in O as (t2 & _ & _ & O & _); auto.
    cbn. congruence. }
  destruct r as [e| |b|e]; try (now apply (IO [] E)); try (now apply (IO b E)); now injection E as <- <-.
Qed.

Lemma tls_rbuf : forall t0 m acts x l, ready T dec t0 ->
  xrun T M fuel (XState (stream_tls T t0) m FIdle) acts = (x, l) ->
  no_error l -> x_f x <> FDead -> x_rbuf (x_s x) = [].
Proof.
  intros t0 m acts x l Hr E. revert x l E.
  enough (G : forall x l, xrun T M fuel (XState (stream_tls T t0) m FIdle) acts = (x, l) ->
    tinv T M dec t0 x l /\ (no_error l -> x_f x <> FDead -> x_rbuf (x_s x) = []))
    by (intros x l E; now apply (G x l E)).
  intros x l. eapply (xrun_ind T M fuel (fun x l =>
    tinv T M dec t0 x l /\ (no_error l -> x_f x <> FDead -> x_rbuf (x_s x) = []))).
  { split; [|reflexivity]. intros _ _. exists t0. cbn. auto. }
  clear -Law. intros x l a x' l' [H1 H2] E. split; [eapply xstep_tinv; eauto|].
  intros N D. apply no_error_app in N as [N N'].
  assert (Hx : x_f x <> FDead).
  { intro F. rewrite (xstep_dead _ _ _ x a F) in E. now injection E as <- <-. }
  specialize (H2 N Hx). destruct (H1 N Hx) as (t & Ht & Hr & _).
  apply xstep_log in E.
  inversion E as [Hs E0|l0 Hfl Hl Hl' Hg Hrb E0|h l0 s1 Es Hh E0|e He0 Hs ? E0|n ? ? Hs E0|rr ? Hs E0|e He0 Hs E0];
    subst; try (now rewrite Hs).
  - congruence.
  - assert (N0 : no_error l0).
    { destruct N' as [F1 F2]. destruct Hh as [(-> & _)|[(b & _ & -> & _)|(_ & -> & _)]]; now split. }
    eapply (sync_rbuf s1); [|exact Hr|exact Es|exact N0|exact D].
    destruct Hh as [(_ & ->)|[(b & _ & _ & _ & ->)|(_ & _ & _ & ->)]]; cbn; auto.
Qed.
End Rbuf.

Section Net.
Context (T1 T2 : tls) (M1 M2 : machine) (fuel : nat).
Notation run := (net_run T1 T2 M1 M2 fuel).
Notation step := (net_step T1 T2 M1 M2 fuel).

Lemma lefts_app : forall l1 l2 : list (nlog M1 M2), lefts (l1 ++ l2) = lefts l1 ++ lefts l2.
Proof. intros l1 l2. induction l1 as [|[] l1 IH]; cbn; now rewrite ?IH. Qed.
Lemma rights_app : forall l1 l2 : list (nlog M1 M2), rights (l1 ++ l2) = rights l1 ++ rights l2.
Proof. intros l1 l2. induction l1 as [|[] l1 IH]; cbn; now rewrite ?IH. Qed.
Lemma lefts_l : forall k, lefts (map (@NL M1 M2) k) = k.
Proof. induction k; cbn; congruence. Qed.
Lemma rights_l : forall k, rights (map (@NL M1 M2) k) = [].
Proof. induction k; cbn; congruence. Qed.
Lemma lefts_r : forall k, lefts (map (@NR M1 M2) k) = [].
Proof. induction k; cbn; congruence. Qed.
Lemma rights_r : forall k, rights (map (@NR M1 M2) k) = k.
Proof. induction k; cbn; congruence. Qed.

Lemma net_run_app : forall a1 a2 z, run z (a1 ++ a2) =
  let '(z1, l1) := run z a1 in let '(z2, l2) := run z1 a2 in (z2, l1 ++ l2).
Proof.
  induction a1 as [|a a1 IH]; intros a2 z; cbn.
  - now destruct (run z a2).
  - destruct (step z a) as [z1 l1]. rewrite IH. destruct (run z1 a1) as [z2 l2].
    destruct (run z2 a2) as [z3 l3]. now rewrite app_assoc.
Qed.

Lemma net_run_ind : forall (P : net T1 T2 M1 M2 -> list (nlog M1 M2) -> Prop) z0,
  P z0 [] ->
  (forall z l a z' l', P z l -> step z a = (z', l') -> P z' (l ++ l')) ->
  forall acts z l, run z0 acts = (z, l) -> P z l.
Proof.
  intros P z0 H0 HS acts. induction acts as [|a acts IH] using rev_ind; intros z l E.
  - cbn in E. now injection E as <- <-.
  - rewrite net_run_app in E. destruct (run z0 acts) as [z1 l1] eqn:E1. cbn in E.
    destruct (step z1 a) as [z2 l2] eqn:E2. injection E as <- <-. rewrite app_nil_r. eauto.
Qed.

(** ** One step is a step of one side *)

Inductive moved (z z' : net T1 T2 M1 M2) (l' : list (nlog M1 M2)) : Prop :=
| mv_none : z' = z -> l' = [] -> moved z z' l'
| mv_left : forall a l, l' = map NL l -> xstep T1 M1 fuel (n_l z) a = (n_l z', l) ->
    n_r z' = n_r z -> n_right z' = n_right z ++ xwritten l -> n_left z = xread l ++ n_left z' ->
    moved z z' l'
| mv_right : forall a l, l' = map NR l -> xstep T2 M2 fuel (n_r z) a = (n_r z', l) ->
    n_l z' = n_l z -> n_left z' = n_left z ++ xwritten l -> n_right z = xread l ++ n_right z' ->
    moved z z' l'.

Lemma iter_quiet : forall M l, Forall (iter_entry M) l -> xread l = [] /\ xwritten l = [].
Proof.
  intros M l F. induction F as [|e l He _ IH]; [auto|]. destruct IH as [I1 I2].
  destruct e; cbn; rewrite ?I1, ?I2; auto; cbn in He; contradiction.
Qed.

Lemma step_reads : forall T M (x : xstate T M) a x' l, xstep T M fuel x a = (x', l) -> conjures a = false ->
  xread l = [].
Proof.
  intros T M x a x' l E C. apply xstep_log in E as F.
  assert (Sy : forall (s : stream T) m x' l, sync T M fuel s m = (x', l) -> xread l = [])
    by (intros s m y k Es; apply sync_entries in Es; now apply iter_quiet).
  destruct a as [| |r|r|ok| |o]; cbn [xstep] in E.
  - destruct (x_f x); try (now injection E as _ <-).
    destruct (sync T M fuel (x_s x) (x_m x)) as [y k] eqn:Es. injection E as _ <-. cbn. eauto.
  - destruct (x_f x); try (now injection E as _ <-).
    destruct (start_flush T M fuel (x_s x) (x_m x)) as [y k] eqn:Es. injection E as _ <-. cbn.
    inversion F as [Hs E0|l0 Hfl Hl Hl' Hg Hrb E0|h l0 s1 Es' Hh E0|e He0 Hs ? E0|n ? ? Hs E0|rr ? Hs E0|e He0 Hs E0];
      subst; try discriminate; try (now apply iter_quiet).
    + destruct Hh as [(? & _)|[(b & _ & ? & _ & _)|(_ & ? & _ & _)]]; subst; discriminate.
    + reflexivity.
  - destruct (reading (x_f x)); [|now injection E as _ <-].
    destruct r as [[|b r]|]; try (now injection E as _ <-). discriminate.
  - destruct (writing (x_f x)) eqn:Wr; [|now injection E as _ <-].
    destruct r as [[|n]|]; try (now injection E as _ <-).
    destruct (Nat.leb (S n) (length (x_wbuf (x_s x)))); [|now injection E as _ <-].
    cbn [x_wbuf] in E. destruct (skipn (S n) (x_wbuf (x_s x))); [|now injection E as _ <-].
    destruct (x_f x); try (now injection E as _ <-).
    destruct (sync T M fuel _ (x_m x)) as [y k] eqn:Es. injection E as _ <-. cbn. eauto.
  - destruct (x_f x); now injection E as _ <-.
  - destruct (pending (x_f x)); now injection E as _ <-.
  - destruct (x_f x); try (now injection E as _ <-).
    destruct (m_call M (x_m x) o) as [[m1 r]|]; now injection E as _ <-.
Qed.

Lemma read_step : forall T M (x : xstate T M) b bs x' l, reading (x_f x) = true ->
  xstep T M fuel x (ARead (Some (b :: bs))) = (x', l) -> xread l = b :: bs.
Proof.
  intros T M x b bs x' l R E. cbn in E. rewrite R in E.
  destruct (sync T M fuel _ (x_m x)) as [y k] eqn:Es. injection E as _ <-. cbn.
  apply sync_entries, iter_quiet in Es as [-> _]. now rewrite app_nil_r.
Qed.

Lemma step_moved : forall z a z' l', step z a = (z', l') -> moved z z' l'.
Proof.
  intros z a z' l' E. destruct a as [a|a|n|n]; cbn -[xstep] in E.
  - destruct (conjures a) eqn:C; [injection E as <- <-; now apply mv_none|].
    destruct (xstep T1 M1 fuel (n_l z) a) as [x l] eqn:S. injection E as <- <-.
    eapply (mv_left _ _ _ a l); cbn -[xstep]; auto. now rewrite (step_reads _ _ _ _ _ _ S C).
  - destruct (conjures a) eqn:C; [injection E as <- <-; now apply mv_none|].
    destruct (xstep T2 M2 fuel (n_r z) a) as [x l] eqn:S. injection E as <- <-.
    eapply (mv_right _ _ _ a l); cbn -[xstep]; auto. now rewrite (step_reads _ _ _ _ _ _ S C).
  - destruct (firstn n (n_right z)) as [|b bs] eqn:B; [injection E as <- <-; now apply mv_none|].
    destruct (reading (x_f (n_r z))) eqn:R; [|injection E as <- <-; now apply mv_none].
    destruct (xstep T2 M2 fuel (n_r z) (ARead (Some (b :: bs)))) as [x l] eqn:S. injection E as <- <-.
    eapply (mv_right _ _ _ _ l); [reflexivity|exact S|reflexivity|reflexivity|].
    rewrite (read_step _ _ _ _ _ _ _ R S), <- B. cbn. now rewrite firstn_skipn.
  - destruct (firstn n (n_left z)) as [|b bs] eqn:B; [injection E as <- <-; now apply mv_none|].
    destruct (reading (x_f (n_l z))) eqn:R; [|injection E as <- <-; now apply mv_none].
    destruct (xstep T1 M1 fuel (n_l z) (ARead (Some (b :: bs)))) as [x l] eqn:S. injection E as <- <-.
    eapply (mv_left _ _ _ _ l); [reflexivity|exact S|reflexivity|reflexivity|].
    rewrite (read_step _ _ _ _ _ _ _ R S), <- B. cbn. now rewrite firstn_skipn.
Qed.

(** ** A run of the network is a run of each stream *)

Section Run.
Context (s1 : stream T1) (m1 : m_st M1) (s2 : stream T2) (m2 : m_st M2).
Notation z0 := (net_new T1 T2 M1 M2 s1 m1 s2 m2).

Lemma net_projects : forall acts z l, run z0 acts = (z, l) ->
  (exists a1, xrun T1 M1 fuel (XState s1 m1 FIdle) a1 = (n_l z, lefts l)) /\
  (exists a2, xrun T2 M2 fuel (XState s2 m2 FIdle) a2 = (n_r z, rights l)).
Proof.
  intros acts z l. eapply (net_run_ind (fun z l =>
    (exists a1, xrun T1 M1 fuel (XState s1 m1 FIdle) a1 = (n_l z, lefts l)) /\
    (exists a2, xrun T2 M2 fuel (XState s2 m2 FIdle) a2 = (n_r z, rights l)))).
  - split; exists []; reflexivity.
  - clear. intros z l a z' l' [(a1 & H1) (a2 & H2)] E. rewrite lefts_app, rights_app.
    apply step_moved in E as [-> ->|b k -> S Er _ _|b k -> S El _ _].
    + cbn. rewrite !app_nil_r. eauto.
    + rewrite lefts_l, rights_l, app_nil_r, Er. split; [|eauto]. exists (a1 ++ [b]).
      rewrite xrun_app, H1. cbn. rewrite S. now rewrite app_nil_r.
    + rewrite lefts_r, rights_r, app_nil_r, El. split; [eauto|]. exists (a2 ++ [b]).
      rewrite xrun_app, H2. cbn. rewrite S. now rewrite app_nil_r.
Qed.

(** The network: what was written was read, or is under way. *)
Lemma net_carries : forall acts z l, run z0 acts = (z, l) ->
  xwritten (lefts l) = xread (rights l) ++ n_right z /\
  xwritten (rights l) = xread (lefts l) ++ n_left z.
Proof.
  intros acts z l. eapply (net_run_ind (fun z l =>
    xwritten (lefts l) = xread (rights l) ++ n_right z /\
    xwritten (rights l) = xread (lefts l) ++ n_left z)); [auto|].
  clear. intros z l a z' l' [H1 H2] E. rewrite lefts_app, rights_app, !xwritten_app, !xread_app.
  apply step_moved in E as [-> ->|b k -> S Er Hr Hl|b k -> S El Hl Hr].
  - cbn. now rewrite !app_nil_r.
  - rewrite lefts_l, rights_l. cbn. rewrite !app_nil_r, Hr, H1, <- !app_assoc, <- Hl. auto.
  - rewrite lefts_r, rights_r. cbn. rewrite !app_nil_r, Hl, H2, <- !app_assoc, <- Hr. auto.
Qed.

(** ** Causality *)

(** Both sides of the statement at the end of a run suffice. *)
Definition in_step (l : list (nlog M1 M2)) : Prop :=
  prefix (xgiven (rights l)) (xoutputs (lefts l)) /\
  prefix (xgiven (lefts l)) (xoutputs (rights l)).

Lemma causal_steps : forall (Q : net T1 T2 M1 M2 -> list (nlog M1 M2) -> Prop),
  (forall acts z l, run z0 acts = (z, l) -> Q z l -> in_step l) ->
  (forall z l a z' l', step z a = (z', l') -> Q z' (l ++ l') -> Q z l) ->
  forall acts z l, run z0 acts = (z, l) -> Q z l -> causal l.
Proof.
  intros Q HQ HM acts. induction acts as [|a acts IH] using rev_ind; intros z l E Hz.
  - cbn in E. injection E as <- <-. intros l1 l2 H. symmetry in H. apply app_eq_nil in H as [-> ->].
    split; apply prefix_refl.
  - pose proof (HQ _ _ _ E Hz) as [G1 G2].
    rewrite net_run_app in E. destruct (run z0 acts) as [z1 l1] eqn:E1. cbn -[net_step] in E.
    destruct (step z1 a) as [z2 l2] eqn:E2. injection E as <- <-. rewrite app_nil_r in *.
    pose proof (HM _ _ _ _ _ E2 Hz) as Hz1. pose proof (IH _ _ eq_refl Hz1) as C.
    intros la lb H.
    destruct (app_eq_app _ _ _ _ H) as (k & [[-> ->]|[-> Hk]]).
    + apply (C la k). reflexivity.
    + assert (in_step l1) as [C1 C2] by (apply (C l1 []); now rewrite app_nil_r).
      apply step_moved in E2 as [-> ->|b j -> S Er _ _|b j -> S El _ _].
      * symmetry in Hk. apply app_eq_nil in Hk as [-> ->]. rewrite app_nil_r. auto.
      * rewrite lefts_app, rights_app in *. rewrite lefts_l, rights_l, app_nil_r in *.
        apply map_eq_app in Hk as (j1 & j2 & -> & <- & _). rewrite lefts_l, rights_l, app_nil_r.
        rewrite !xgiven_app, !xoutputs_app in *. split; [now apply prefix_app|].
        eapply prefix_trans; [|exact G2]. rewrite !app_assoc. apply prefix_self.
      * rewrite lefts_app, rights_app in *. rewrite lefts_r, rights_r, app_nil_r in *.
        apply map_eq_app in Hk as (j1 & j2 & -> & <- & _). rewrite lefts_r, rights_r, app_nil_r.
        rewrite !xgiven_app, !xoutputs_app in *. split; [|now apply prefix_app].
        eapply prefix_trans; [|exact G1]. rewrite !app_assoc. apply prefix_self.
Qed.
End Run.

(** ** Without TLS *)

Lemma net_plain : forall m1 m2 acts z l,
  run (net_new T1 T2 M1 M2 (stream_insecure T1) m1 (stream_insecure T2) m2) acts = (z, l) ->
  xoutputs (lefts l) = xgiven (rights l) ++ x_rbuf (x_s (n_r z)) ++ n_right z ++ x_wbuf (x_s (n_l z)) /\
  xoutputs (rights l) = xgiven (lefts l) ++ x_rbuf (x_s (n_l z)) ++ n_left z ++ x_wbuf (x_s (n_r z)).
Proof.
  intros m1 m2 acts z l E. destruct (net_projects _ _ _ _ _ _ _ E) as [(a1 & H1) (a2 & H2)].
  destruct (net_carries _ _ _ _ _ _ _ E) as [C1 C2].
  apply plain_conserved in H1 as [L1 L2]. apply plain_conserved in H2 as [R1 R2].
  split; [rewrite <- L1, C1, R2|rewrite <- R1, C2, L2]; now rewrite <- !app_assoc.
Qed.

Lemma net_plain_causal : forall m1 m2 acts z l,
  run (net_new T1 T2 M1 M2 (stream_insecure T1) m1 (stream_insecure T2) m2) acts = (z, l) -> causal l.
Proof.
  intros m1 m2 acts z l E. eapply (causal_steps _ _ _ _ (fun _ _ => True)); eauto.
  intros acts' z' l' E' _. apply net_plain in E' as [G1 G2].
  split; [rewrite G1|rewrite G2]; apply prefix_self.
Qed.

(** ** With TLS *)

Section Tls.
Context (t1 : t_st T1) (t2 : t_st T2).
Context (peer1 : bytes -> bytes) (R1 : t_st T1 -> bytes -> bytes -> Prop) (dec1 : t_st T2 -> bytes -> bytes).
Context (peer2 : bytes -> bytes) (R2 : t_st T2 -> bytes -> bytes -> Prop) (dec2 : t_st T1 -> bytes -> bytes).
Context (Link1 : tls_link T1 T2 t1 t2 peer1 R1 dec1) (Link2 : tls_link T2 T1 t2 t1 peer2 R2 dec2).
Context (m1 : m_st M1) (m2 : m_st M2).
Notation z0 := (net_new T1 T2 M1 M2 (stream_tls T1 t1) m1 (stream_tls T2 t2) m2).

Definition well (z : net T1 T2 M1 M2) (l : list (nlog M1 M2)) : Prop :=
  no_error (lefts l) /\ no_error (rights l) /\ x_f (n_l z) <> FDead /\ x_f (n_r z) <> FDead.

Lemma well_before : forall z l a z' l', step z a = (z', l') -> well z' (l ++ l') -> well z l.
Proof.
  intros z l a z' l' E (H1 & H2 & H3 & H4). rewrite lefts_app in H1. rewrite rights_app in H2.
  apply no_error_app in H1 as [H1 _]. apply no_error_app in H2 as [H2 _].
  apply step_moved in E as [-> ->|b k -> S Er _ _|b k -> S El _ _].
  - repeat split; auto; try apply H1; try apply H2.
  - rewrite Er in H4. repeat split; auto; try apply H1; try apply H2.
    intro F. rewrite (xstep_dead _ _ _ _ _ F) in S. injection S as S _. now rewrite <- S in H3.
  - rewrite El in H3. repeat split; auto; try apply H1; try apply H2.
    intro F. rewrite (xstep_dead _ _ _ _ _ F) in S. injection S as S _. now rewrite <- S in H4.
Qed.

(** One direction. *)
Lemma direction : forall Ta Tb Ma Mb (ta : t_st Ta) (tb : t_st Tb) peer R dec,
  tls_link Ta Tb ta tb peer R dec ->
  forall ma mb aa ab xa xb la lb q,
  xrun Ta Ma fuel (XState (stream_tls Ta ta) ma FIdle) aa = (xa, la) ->
  xrun Tb Mb fuel (XState (stream_tls Tb tb) mb FIdle) ab = (xb, lb) ->
  no_error la -> no_error lb -> x_f xa <> FDead -> x_f xb <> FDead ->
  xwritten la = xread lb ++ q ->
  xoutputs la = peer (xread lb ++ q ++ x_wbuf (x_s xa)) /\ xgiven lb = peer (xread lb).
Proof.
  intros Ta Tb Ma Mb ta tb peer R dec Lk ma mb aa ab xa xb la lb q Ea Eb Na Nb Da Db C.
  pose proof (tk_ready _ _ _ _ _ _ _ Lk) as Rd. pose proof (tk_same _ _ _ _ _ _ _ Lk) as Sm.
  pose proof (tk_receives _ _ _ _ _ _ _ Lk) as Rc.
  split.
  - rewrite app_assoc, <- C. symmetry.
    eapply (tls_sent Ta Ma fuel peer R (tk_sends _ _ _ _ _ _ _ Lk)); eauto.
    + apply (tk_sent _ _ _ _ _ _ _ Lk).
    + rewrite <- Sm. apply Rd.
  - pose proof (tls_rbuf Tb Mb fuel dec Rc tb mb ab xb lb Rd Eb Nb Db) as B.
    destruct (tinv_run Tb Mb fuel dec Rc tb mb ab xb lb Rd Eb Nb Db) as (t & It & Ir & I).
    specialize (I []). rewrite B in I. cbn [app] in I. destruct Ir as [_ Ir]. rewrite Ir, !app_nil_r in I.
    now rewrite <- I.
Qed.

(** What was output is the decryption of all bytes up to the write buffer, and what was given
    that of the bytes read. *)
Lemma net_tls : forall acts z l, run z0 acts = (z, l) -> well z l ->
  xoutputs (lefts l) = peer1 (xread (rights l) ++ n_right z ++ x_wbuf (x_s (n_l z))) /\
  xgiven (rights l) = peer1 (xread (rights l)) /\
  xoutputs (rights l) = peer2 (xread (lefts l) ++ n_left z ++ x_wbuf (x_s (n_r z))) /\
  xgiven (lefts l) = peer2 (xread (lefts l)).
Proof.
  intros acts z l E (N1 & N2 & D1 & D2). destruct (net_projects _ _ _ _ _ _ _ E) as [(a1 & H1) (a2 & H2)].
  destruct (net_carries _ _ _ _ _ _ _ E) as [C1 C2].
  destruct (direction _ _ _ _ _ _ _ _ _ Link1 _ _ _ _ _ _ _ _ _ H1 H2 N1 N2 D1 D2 C1) as [G1 G2].
  destruct (direction _ _ _ _ _ _ _ _ _ Link2 _ _ _ _ _ _ _ _ _ H2 H1 N2 N1 D2 D1 C2) as [G3 G4].
  auto.
Qed.

Lemma net_tls_causal : forall acts z l, run z0 acts = (z, l) -> well z l -> causal l.
Proof.
  intros acts z l E W. eapply (causal_steps _ _ _ _ well); eauto; [|apply well_before].
  clear acts z l E W. intros acts z l E W.
  destruct (net_tls _ _ _ E W) as (G1 & G2 & G3 & G4). split.
  - rewrite G1, G2. apply (tk_grows _ _ _ _ _ _ _ Link1).
  - rewrite G3, G4. apply (tk_grows _ _ _ _ _ _ _ Link2).
Qed.
End Tls.
End Net.
