(** A client in a stream connected to a server in a stream behaves like the two connected
    directly (System.v). *)
From Coq Require Import List NArith Bool PeanoNat Lia.
From Verif Require Import Base Types Codec Handle ServerSend ClientSend Client Server
  SpecClient SpecServer Stream StreamMachine SpecStream StreamProofs StreamState System SpecSystem SystemLive
  Net SpecNet NetProofs.
Import ListNotations.

Lemma call_run_length : forall M cs m m' l, call_run M m cs = Some (m', l) -> length l = length cs.
Proof.
  intros M cs. induction cs as [|c cs IH]; intros m m' l E; cbn in E; [now injection E as _ <-|].
  destruct (call_step M m c) as [[m1 e]|]; [|discriminate].
  destruct (call_run M m1 cs) as [[m2 k]|] eqn:R; [|discriminate]. injection E as _ <-. cbn.
  f_equal. eauto.
Qed.

Lemma calls_length : forall M (l : list (xlog M)), length (calls l) = length (call_entries l).
Proof. intros M l. induction l as [|[] l IH]; cbn; now rewrite ?IH. Qed.

Lemma call_run_snoc : forall M m m' (l : list (xlog M)) e,
  call_run M m (calls (l ++ [e])) = Some (m', call_entries (l ++ [e])) ->
  exists m1, call_run M m (calls l) = Some (m1, call_entries l) /\
    call_run M m1 (calls [e]) = Some (m', call_entries [e]).
Proof.
  intros M m m' l e H. rewrite calls_app, call_entries_app, call_run_app in H.
  destruct (call_run M m (calls l)) as [[m1 k]|] eqn:R; [|discriminate].
  destruct (call_run M m1 (calls [e])) as [[m2 k2]|] eqn:R2; [|discriminate].
  assert (Ek : k ++ k2 = call_entries l ++ call_entries [e]) by congruence.
  assert (Em : m2 = m') by congruence. subst m2.
  apply call_run_length in R as Lk. rewrite calls_length in Lk.
  assert (k = call_entries l /\ k2 = call_entries [e]) as [-> ->].
  { clear -Ek Lk. remember (call_entries l) as a. clear Heqa. revert k Ek Lk.
    induction a as [|x a IH]; intros [|y k] Ek Lk; try discriminate; [auto|].
    cbn in Ek. injection Ek as -> Ek. injection Lk as Lk. destruct (IH _ Ek Lk) as [-> ->]. auto. }
  eauto.
Qed.

Lemma causal_before : forall M1 M2 (l : list (nlog M1 M2)) e, causal (l ++ [e]) -> causal l.
Proof. intros M1 M2 l e C l1 l2 ->. apply (C l1 (l2 ++ [e])). now rewrite app_assoc. Qed.

Section Sim.
Context (K : Codecs).
Notation CM := (client_machine K).
Notation SM := (server_machine K).

Lemma client_view_outputs : forall l, xoutputs (flat_map (@client_view K) l) = cwritten l.
Proof.
  induction l as [|e l IH]; [reflexivity|]. cbn [flat_map]. rewrite xoutputs_app, IH.
  destruct e; cbn; auto. destruct r; cbn; rewrite ?app_nil_r; auto.
Qed.
Lemma server_view_outputs : forall l, xoutputs (flat_map (@server_view K) l) = swritten l.
Proof.
  induction l as [|e l IH]; [reflexivity|]. cbn [flat_map]. rewrite xoutputs_app, IH.
  destruct e; cbn; auto. destruct r; cbn; rewrite ?app_nil_r; auto.
Qed.

Lemma clogs_map : forall l, clogs (map YC l) = l.
Proof. induction l; cbn; congruence. Qed.
Lemma slogs_map_c : forall l, slogs (map YC l) = [].
Proof. induction l; cbn; congruence. Qed.
Lemma slogs_map : forall l, slogs (map YS l) = l.
Proof. induction l; cbn; congruence. Qed.
Lemma clogs_map_s : forall l, clogs (map YS l) = [].
Proof. induction l; cbn; congruence. Qed.
Lemma clogs_app' : forall a b, clogs (a ++ b) = clogs a ++ clogs b.
Proof. intros a b. induction a as [|[] a IH]; cbn; now rewrite ?IH. Qed.
Lemma slogs_app' : forall a b, slogs (a ++ b) = slogs a ++ slogs b.
Proof. intros a b. induction a as [|[] a IH]; cbn; now rewrite ?IH. Qed.

(** One entry of the client. *)
Lemma client_entry : forall y c' (e : xlog CM) q,
  call_run CM (y_client y) (calls [e]) = Some (c', call_entries [e]) ->
  y_to_client y = xgiven [e] ++ q ->
  exists acts l, sys_run K y acts =
    (Some (Sys c' (y_server y) (y_to_server y ++ xoutputs [e]) q), map YC l) /\
    flat_map client_view l = call_entries [e].
Proof.
  intros y c' e q R Q.
  assert (Sk : calls [e] = [] -> xgiven [e] = [] -> xoutputs [e] = [] -> call_entries [e] = [] ->
    exists acts l, sys_run K y acts =
    (Some (Sys c' (y_server y) (y_to_server y ++ xoutputs [e]) q), map YC l) /\
    flat_map client_view l = call_entries [e]).
  { intros H1 H2 H3 H4. rewrite H1 in R. injection R as <-. exists [], []. rewrite H3, H4, app_nil_r.
    rewrite H2 in Q. cbn in Q. subst q. now destruct y. }
  assert (St : forall o, calls [e] = [o] -> call_entries [e] = [e] ->
    exists l, client_step K (y_client y) (client_cop o) = (Some c', l) /\ flat_map client_view l = [e] /\
      cwritten l = xoutputs [e]).
  { intros o H1 H2. rewrite H1, H2 in R. cbn [call_run] in R.
    destruct (call_step CM (y_client y) o) as [[c1 e1]|] eqn:S; [|discriminate].
    injection R as <- <-. apply client_call_step in S as (l & S1 & S2). exists l.
    split; [exact S1|]. split; [exact S2|]. now rewrite <- client_view_outputs, S2. }
  destruct e as [p r|b|r| | | | | | | |]; try (apply Sk; reflexivity).
  - destruct (St (ScCall p) eq_refl eq_refl) as (l & S & V & W). exists [YClient (capp_op p)], l.
    cbn -[client_step xoutputs]. assert (I : is_cinput (capp_op p) = false) by now destruct p. rewrite I.
    cbn [client_cop] in S. rewrite S, W, !app_nil_r. cbn in Q. subst q. auto.
  - destruct (St (ScGive b) eq_refl eq_refl) as (l & S & V & W). exists [YToClient (length b)], l.
    cbn -[client_step]. cbn in Q. rewrite app_nil_r in Q. rewrite Q.
    rewrite firstn_app, Nat.sub_diag, firstn_all, firstn_O, app_nil_r.
    cbn [client_cop] in S. rewrite S.
    rewrite skipn_app, Nat.sub_diag, skipn_all, !app_nil_r. cbn. auto.
  - destruct (St ScNext eq_refl eq_refl) as (l & S & V & W). exists [YClient CopNext], l.
    cbn [sys_run sys_step is_cinput]. cbn [client_cop] in S. rewrite S, W, !app_nil_r. cbn in Q. subst q. auto.
Qed.

Lemma server_entry : forall y s' (e : xlog SM) q,
  call_run SM (y_server y) (calls [e]) = Some (s', call_entries [e]) ->
  y_to_server y = xgiven [e] ++ q ->
  exists acts l, sys_run K y acts =
    (Some (Sys (y_client y) s' q (y_to_client y ++ xoutputs [e])), map YS l) /\
    flat_map server_view l = call_entries [e].
Proof.
  intros y s' e q R Q.
  assert (Sk : calls [e] = [] -> xgiven [e] = [] -> xoutputs [e] = [] -> call_entries [e] = [] ->
    exists acts l, sys_run K y acts =
    (Some (Sys (y_client y) s' q (y_to_client y ++ xoutputs [e])), map YS l) /\
    flat_map server_view l = call_entries [e]).
  { intros H1 H2 H3 H4. rewrite H1 in R. injection R as <-. exists [], []. rewrite H3, H4, app_nil_r.
    rewrite H2 in Q. cbn in Q. subst q. now destruct y. }
  assert (St : forall o, calls [e] = [o] -> call_entries [e] = [e] ->
    exists l, server_step K (y_server y) (server_sop o) = (Some s', l) /\ flat_map server_view l = [e] /\
      swritten l = xoutputs [e]).
  { intros o H1 H2. rewrite H1, H2 in R. cbn [call_run] in R.
    destruct (call_step SM (y_server y) o) as [[c1 e1]|] eqn:S; [|discriminate].
    injection R as <- <-. apply server_call_step in S as (l & S1 & S2). exists l.
    split; [exact S1|]. split; [exact S2|]. now rewrite <- server_view_outputs, S2. }
  destruct e as [p r|b|r| | | | | | | |]; try (apply Sk; reflexivity).
  - destruct (St (ScCall p) eq_refl eq_refl) as (l & S & V & W). exists [YServer (sapp_op p)], l.
    cbn -[server_step xoutputs]. assert (I : is_sinput (sapp_op p) = false) by now destruct p. rewrite I.
    cbn [server_sop] in S. rewrite S, W, !app_nil_r. cbn in Q. subst q. auto.
  - destruct (St (ScGive b) eq_refl eq_refl) as (l & S & V & W). exists [YToServer (length b)], l.
    cbn -[server_step]. cbn in Q. rewrite app_nil_r in Q. rewrite Q.
    rewrite firstn_app, Nat.sub_diag, firstn_all, firstn_O, app_nil_r.
    cbn [server_sop] in S. rewrite S.
    rewrite skipn_app, Nat.sub_diag, skipn_all, !app_nil_r. cbn. auto.
  - destruct (St ScNext eq_refl eq_refl) as (l & S & V & W). exists [YServer SopNext], l.
    cbn [sys_run sys_step is_sinput]. cbn [server_sop] in S. rewrite S, W, !app_nil_r. cbn in Q. subst q. auto.
Qed.

Theorem joint_run : forall relaxed o gc gs gr L c s,
  call_run CM (client_new gc relaxed) (calls (lefts L)) = Some (c, call_entries (lefts L)) ->
  call_run SM (server_new gs o gr) (calls (rights L)) = Some (s, call_entries (rights L)) ->
  causal L ->
  exists acts y l, yran K relaxed gc gs o gr acts y l /\ same_talk L c s y l.
Proof.
  intros relaxed o gc gs gr L. induction L as [|e L IH] using rev_ind; intros c s Hc Hs C.
  - injection Hc as <-. injection Hs as <-. exists [], (sys_new gc gs relaxed o gr), []. split; [reflexivity|].
    split; reflexivity.
  - destruct (C (L ++ [e]) []) as [C1 C2]; [now rewrite app_nil_r|].
    apply causal_before in C. rewrite lefts_app, rights_app in *.
    destruct e as [e|e]; cbn [lefts rights] in *; rewrite ?app_nil_r in *.
    + apply call_run_snoc in Hc as (c1 & Hc1 & Hc2). destruct (IH _ _ Hc1 Hs C) as (acts & y & l & Y & [S1 S2 S3 S4 S5 S6]).
      subst c1 s. rewrite xgiven_app, S6 in C2. destruct C2 as (q & C2). rewrite <- app_assoc in C2.
      apply app_inv_head in C2. destruct (client_entry _ _ _ _ Hc2 C2) as (acts2 & l2 & Y2 & V2).
      eexists (acts ++ acts2), _, (l ++ map YC l2). split.
      { unfold yran in *. rewrite (sys_run_app _ _ _ _ _ _ Y), Y2. reflexivity. }
      split; cbn [y_client y_server y_to_server y_to_client]; auto; rewrite ?lefts_app, ?rights_app; cbn [lefts rights]; rewrite ?app_nil_r.
      * now rewrite clogs_app', clogs_map, flat_map_app, S3, V2, call_entries_app.
      * now rewrite slogs_app', slogs_map_c, app_nil_r.
      * rewrite xoutputs_app, S5. now rewrite app_assoc.
      * rewrite xgiven_app, S6, C2. now rewrite app_assoc.
    + apply call_run_snoc in Hs as (s1 & Hs1 & Hs2). destruct (IH _ _ Hc Hs1 C) as (acts & y & l & Y & [S1 S2 S3 S4 S5 S6]).
      subst s1 c. rewrite xgiven_app, S5 in C1. destruct C1 as (q & C1). rewrite <- app_assoc in C1.
      apply app_inv_head in C1. destruct (server_entry _ _ _ _ Hs2 C1) as (acts2 & l2 & Y2 & V2).
      eexists (acts ++ acts2), _, (l ++ map YS l2). split.
      { unfold yran in *. rewrite (sys_run_app _ _ _ _ _ _ Y), Y2. reflexivity. }
      split; cbn [y_client y_server y_to_server y_to_client]; auto; rewrite ?lefts_app, ?rights_app; cbn [lefts rights]; rewrite ?app_nil_r.
      * now rewrite clogs_app', clogs_map_s, app_nil_r.
      * now rewrite slogs_app', slogs_map, flat_map_app, S4, V2, call_entries_app.
      * rewrite xgiven_app, S5, C1. now rewrite app_assoc.
      * rewrite xoutputs_app, S6. now rewrite app_assoc.
Qed.
End Sim.
