(** The handle generators of the conversations of the program around the proxy. *)
From Coq Require Import List NArith Bool PeanoNat Lia.
From Verif Require Import Base Types Codec Handle Client Server Stream StreamMachine ProxyUtil Proxy
  Service SpecService ServiceProofs.
Import ListNotations.

(** The place of [x] in [l]. *)
Fixpoint place (x : nat * nat) (l : list (nat * nat)) : nat :=
  match l with
  | [] => 0
  | y :: l' => if (Nat.eqb (fst x) (fst y) && Nat.eqb (snd x) (snd y))%bool then 0 else S (place x l')
  end.

Lemma place_in : forall l x, In x l -> nth_error l (place x l) = Some x.
Proof.
  induction l as [|[a b] l IH]; intros [c d] H; [contradiction|]. cbn.
  destruct (Nat.eqb_spec c a) as [->|N1]; [destruct (Nat.eqb_spec d b) as [->|N2]|]; cbn; auto;
    apply IH; destruct H as [H|H]; auto; congruence.
Qed.

Lemma place_new : forall l x, ~ In x l -> place x (l ++ [x]) = length l.
Proof.
  induction l as [|[a b] l IH]; intros [c d] H; cbn.
  - now rewrite !Nat.eqb_refl.
  - destruct (Nat.eqb_spec c a) as [->|N1]; [destruct (Nat.eqb_spec d b) as [->|N2]|]; cbn;
      try (f_equal; apply IH; intro; apply H; now right). destruct H. now left.
Qed.

Lemma place_old : forall l x y, In x l -> place x (l ++ [y]) = place x l.
Proof.
  induction l as [|[a b] l IH]; intros [c d] y H; [contradiction|]. cbn.
  destruct (Nat.eqb_spec c a) as [->|N1]; [destruct (Nat.eqb_spec d b) as [->|N2]|]; cbn; auto;
    f_equal; apply IH; destruct H as [H|H]; auto; congruence.
Qed.

(** The value of a counter that was incremented [n] times. *)
Definition count (n : nat) : N := N.modulo (N.of_nat n) two64.
Lemma count_succ : forall n, wrap_succ (count n) = count (S n).
Proof.
  intro n. unfold wrap_succ, count. rewrite N.add_mod_idemp_l by discriminate. f_equal. lia.
Qed.

Section Handles.
Context (K : Codecs) (Tc Ts : tls) (fuel : nat).
Notation pstep := (pstep K Tc Ts fuel).
Notation prun := (prun K Tc Ts fuel).
Notation world := (world K Tc Ts).
Notation wstep := (world_step K Tc Ts fuel).

Lemma pstep_any : forall g p a p' l, pstep g p a = (p', l) -> greeted K Tc Ts p p' = false ->
  forall g', pstep g' p a = (p', l).
Proof.
  intros g p a p' l H G g'. destruct p as [c s|c s|w]; try exact H.
  destruct a as [[] a]; cbn [Proxy.pstep] in *; [|exact H].
  unfold greeting_side in *. destruct (xstep _ _ _ s _) as [s1 l1]. destruct (is_dead _); [exact H|].
  destruct (returned l1) as [[e| | | | |]|]; try exact H. destruct e; try exact H.
  injection H as <- <-. discriminate.
Qed.

Definition talks (t : option (task K Tc Ts)) : bool :=
  match t with Some (TkTalk _) => true | _ => false end.

(** What a step does to the counters and the conversations. *)
Inductive counted (w w' : world) (l : list (wlog K)) : Prop :=
| co_none : w_clients w' = w_clients w -> w_servers w' = w_servers w -> l = [] ->
    (forall i k p, task_at w' i k = Some (TkTalk p) <-> task_at w i k = Some (TkTalk p)) ->
    (forall i k, task_at w i k <> None -> task_at w' i k <> None) ->
    counted w w' l
| co_start : forall i k c s, w_clients w' = wrap_succ (w_clients w) -> w_servers w' = w_servers w -> l = [] ->
    talks (task_at w i k) = false ->
    task_at w' i k = Some (TkTalk (proxy_start K Tc Ts c s (HGen (w_clients w) 0))) ->
    (forall j m, (i, k) <> (j, m) -> task_at w' j m = task_at w j m) ->
    counted w w' l
| co_talk : forall i k p p' a l', w_clients w' = w_clients w ->
    w_servers w' = (if greeted K Tc Ts p p' then wrap_succ (w_servers w) else w_servers w) ->
    task_at w i k = Some (TkTalk p) -> task_at w' i k = Some (TkTalk p') ->
    pstep (HGen (w_servers w) 0) p a = (p', l') -> l = map (WL i k) l' ->
    (forall j m, (i, k) <> (j, m) -> task_at w' j m = task_at w j m) ->
    counted w w' l.

Lemma task_at_task : forall (w w' : world) i k cfg ls ts t t',
  nth_error (w_svcs w) i = Some (Svc cfg ls ts) -> nth_error ts k = Some t ->
  w_svcs w' = put i (Svc cfg ls (put k t' ts)) (w_svcs w) ->
  task_at w i k = Some t /\ task_at w' i k = Some t' /\
  (forall j m, (i, k) <> (j, m) -> task_at w' j m = task_at w j m).
Proof.
  intros w w' i k cfg ls ts t t' E T Es. unfold task_at, tasks_at. rewrite Es.
  split; [now rewrite E|]. split.
  - rewrite put_eq by exact (nth_lt _ _ _ E). cbn. apply put_eq, (nth_lt _ _ _ T).
  - intros j m N. destruct (Nat.eq_dec i j) as [<-|Ni].
    + rewrite put_eq by exact (nth_lt _ _ _ E). rewrite E. cbn. apply put_neq. congruence.
    + now rewrite put_neq by exact Ni.
Qed.

Lemma task_at_svc : forall (w w' : world) i cfg ls ts ls' c,
  nth_error (w_svcs w) i = Some (Svc cfg ls ts) ->
  w_svcs w' = put i (Svc cfg ls' ts) (w_svcs w) \/ w_svcs w' = put i (Svc cfg ls' (ts ++ [TkConnect c])) (w_svcs w) ->
  (forall j m p, task_at w' j m = Some (TkTalk p) <-> task_at w j m = Some (TkTalk p)) /\
  (forall j m, task_at w j m <> None -> task_at w' j m <> None).
Proof.
  intros w w' i cfg ls ts ls' c E Es.
  assert (X : forall j m, task_at w' j m = task_at w j m \/
    (task_at w' j m = Some (TkConnect c) /\ task_at w j m = None)).
  { intros j m. unfold task_at, tasks_at. destruct (Nat.eq_dec i j) as [<-|N].
    - destruct Es as [-> | ->]; rewrite put_eq by exact (nth_lt _ _ _ E); rewrite E; cbn; [now left|].
      destruct (Nat.lt_ge_cases m (length ts)) as [Lt|Ge]; [left; now apply nth_error_app1|].
      rewrite nth_error_app2 by exact Ge.
      assert (Z : nth_error ts m = None) by now apply nth_error_None.
      destruct (m - length ts) as [|n]; cbn; [auto|]. left. rewrite Z. now destruct n.
    - left. destruct Es as [-> | ->]; now rewrite put_neq by exact N. }
  split; intros j m.
  - intro p. destruct (X j m) as [-> |[-> ->]]; [tauto|]. split; discriminate.
  - destruct (X j m) as [-> |[-> _]]; [auto|discriminate].
Qed.

Lemma counted_svc : forall (w w' : world) i cfg ls ts ls' c,
  nth_error (w_svcs w) i = Some (Svc cfg ls ts) ->
  w_svcs w' = put i (Svc cfg ls' ts) (w_svcs w) \/ w_svcs w' = put i (Svc cfg ls' (ts ++ [TkConnect c])) (w_svcs w) ->
  w_clients w' = w_clients w -> w_servers w' = w_servers w -> counted w w' [].
Proof. intros w w' i cfg ls ts ls' c E Es C1 C2. destruct (task_at_svc w w' _ _ _ _ _ _ E Es). now apply co_none. Qed.

Lemma counted_task : forall (w w' : world) i k cfg ls ts t t',
  nth_error (w_svcs w) i = Some (Svc cfg ls ts) -> nth_error ts k = Some t ->
  w_svcs w' = put i (Svc cfg ls (put k t' ts)) (w_svcs w) ->
  talks (Some t) = false -> talks (Some t') = false ->
  w_clients w' = w_clients w -> w_servers w' = w_servers w -> counted w w' [].
Proof.
  intros w w' i k cfg ls ts t t' E T Es Nt Nt' C1 C2.
  destruct (task_at_task w w' i k _ _ _ _ t' E T Es) as (T1 & T2 & T3). apply co_none; auto.
  - intros j m p. destruct (Nat.eq_dec i j) as [<-|Ni]; [destruct (Nat.eq_dec k m) as [<-|Nk]|].
    + rewrite T1, T2. split; intro X; injection X as ->; discriminate.
    + rewrite T3 by congruence. tauto.
    + rewrite T3 by congruence. tauto.
  - intros j m. destruct (Nat.eq_dec i j) as [<-|Ni]; [destruct (Nat.eq_dec k m) as [<-|Nk]|].
    + rewrite T2. discriminate.
    + now rewrite T3 by congruence.
    + now rewrite T3 by congruence.
Qed.

Lemma counted_start : forall (w : world) i k cfg ls ts t c s,
  nth_error (w_svcs w) i = Some (Svc cfg ls ts) -> nth_error ts k = Some t -> talks (Some t) = false ->
  counted w (start K Tc Ts w i (Svc cfg ls ts) k c s) [].
Proof.
  intros w i k cfg ls ts t c s E T N.
  destruct (task_at_task w (start K Tc Ts w i (Svc cfg ls ts) k c s) i k cfg ls ts t _ E T eq_refl) as (T1 & T2 & T3).
  eapply co_start; [reflexivity|reflexivity|reflexivity| |exact T2|exact T3]. now rewrite T1.
Qed.

Lemma step_counted : forall w a w' l, wstep w a = (w', l) -> counted w w' l.
Proof.
  intros w a w' l H.
  assert (Same : forall l, l = [] -> counted w w l) by (intros; now apply co_none).
  destruct a as [i ok|i ok id|i r|i k ok rt nm|i k r|i k a]; cbn [world_step] in H;
    (destruct (nth_error (w_svcs w) i) as [[cfg ls ts]|] eqn:E; [|injection H as <- <-; now apply Same]);
    cbn [v_tasks v_cfg] in H.
  - destruct ls; try (injection H as <- <-; now apply Same). apply pair_equal_spec in H as [<- <-].
    eapply (counted_svc w _ i cfg LsBind ts (if ok then LsAccept else LsStopped) (stream_insecure Tc));
      [exact E|left; reflexivity|reflexivity|reflexivity].
  - destruct ls; try (injection H as <- <-; now apply Same). destruct ok; [|injection H as <- <-; now apply Same].
    destruct (binds_tls (sv_bind cfg)) eqn:B; [destruct id; [|injection H as <- <-; now apply Same]|];
      apply pair_equal_spec in H as [<- <-].
    + eapply counted_svc with (c := stream_insecure Tc); [exact E|left; reflexivity|reflexivity|reflexivity].
    + eapply counted_svc; [exact E|right; reflexivity|reflexivity|reflexivity].
  - destruct ls; try (injection H as <- <-; now apply Same). destruct r as [t|]; apply pair_equal_spec in H as [<- <-].
    + eapply counted_svc; [exact E|right; reflexivity|reflexivity|reflexivity].
    + eapply counted_svc with (c := stream_insecure Tc); [exact E|left; reflexivity|reflexivity|reflexivity].
  - destruct (nth_error ts k) as [[c|c|p| |]|] eqn:T; try (injection H as <- <-; now apply Same).
    destruct ok; [destruct (connects_tls (sv_connect cfg))|]; apply pair_equal_spec in H as [<- <-].
    + eapply counted_task; [exact E|exact T|reflexivity|reflexivity| |reflexivity|reflexivity].
      destruct (w_roots w), rt, nm; reflexivity.
    + eapply counted_start; [exact E|exact T|reflexivity].
    + eapply counted_task; [exact E|exact T|reflexivity..].
  - destruct (nth_error ts k) as [[c|c|p| |]|] eqn:T; try (injection H as <- <-; now apply Same).
    destruct r as [t|]; apply pair_equal_spec in H as [<- <-].
    + eapply counted_start; [exact E|exact T|reflexivity].
    + eapply counted_task; [exact E|exact T|reflexivity..].
  - destruct (nth_error ts k) as [[c|c|p| |]|] eqn:T; try (injection H as <- <-; now apply Same).
    cbn [hgengen_generate] in H. destruct (Proxy.pstep _ _ _ _ _ p a) as [p' l'] eqn:P.
    apply pair_equal_spec in H as [<- <-].
    set (w1 := World _ _ _ _).
    destruct (task_at_task w w1 i k cfg ls ts (TkTalk p) (TkTalk p') E T eq_refl) as (T1 & T2 & T3).
    eapply co_talk; [reflexivity|reflexivity|exact T1|exact T2|exact P|reflexivity|exact T3].
Qed.

(** [rc], [rs]: the conversations in the order in which they got their generators. *)
Record ids_inv (w : world) (L : list (wlog K)) (rc rs : list (nat * nat)) : Prop := IdsInv {
  id_clients : w_clients w = count (length rc);
  id_servers : w_servers w = count (length rs);
  id_nodup : NoDup rc /\ NoDup rs;
  id_talk : forall i k, In (i, k) rc <-> talks (task_at w i k) = true;
  id_sub : forall i k, In (i, k) rs -> exists p, task_at w i k = Some (TkTalk p) /\ greeting_state K Tc Ts p = false;
  id_none : forall i k, talks (task_at w i k) = false -> conversation_of i k L = [];
  id_run : forall i k p, task_at w i k = Some (TkTalk p) -> exists cs ss acts, forall gp,
    (In (i, k) rs -> gp = HGen (count (place (i, k) rs)) 0) ->
    prun gp (proxy_start K Tc Ts cs ss (HGen (count (place (i, k) rc)) 0)) acts =
      (p, conversation_of i k L)
}.

Lemma talks_some : forall t, talks t = true <-> exists p, t = Some (TkTalk p).
Proof.
  intros [[c|c|p| |]|]; cbn; split; try discriminate; try (intros (q & X); discriminate X); eauto.
Qed.

Lemma ids_new : forall cfg, ids_inv (world_new K Tc Ts cfg) [] [] [].
Proof.
  intro cfg. assert (N : forall i k, task_at (world_new K Tc Ts cfg) i k = None).
  { intros i k. unfold task_at, tasks_at. cbn. rewrite nth_error_map.
    destruct (nth_error cfg i); cbn; now destruct k. }
  constructor; try reflexivity; try contradiction.
  - split; constructor.
  - intros i k. rewrite N. cbn. split; [contradiction|discriminate].
  - intros i k p. rewrite N. discriminate.
Qed.

Lemma NoDup_snoc : forall (l : list (nat * nat)) x, NoDup l -> ~ In x l -> NoDup (l ++ [x]).
Proof.
  intros l x H N. apply NoDup_rev in H. rewrite <- (rev_involutive (l ++ [x])). apply NoDup_rev.
  rewrite rev_app_distr. cbn. constructor; [now rewrite <- in_rev|exact H].
Qed.

Lemma ids_step : forall w L a w' l rc rs, ids_inv w L rc rs -> wstep w a = (w', l) ->
  exists rc' rs', ids_inv w' (L ++ l) rc' rs'.
Proof.
  intros w L a w' l rc rs [I1 I2 [I3 I3'] I4 I5 I6 I7] H.
  apply step_counted in H as [C1 C2 -> T1 T2|i k c s C1 C2 -> N T1 T2|i k p p' a' l' C1 C2 T1 T2 P -> T3].
  - exists rc, rs. rewrite app_nil_r.
    assert (Q : forall i k, talks (task_at w' i k) = talks (task_at w i k)).
    { intros i k. apply eq_true_iff_eq. rewrite !talks_some. split; intros (p & X); exists p; now apply T1. }
    constructor; try congruence; auto.
    + intros i k. now rewrite Q.
    + intros i k X. apply I5 in X as (p & X & Y). exists p. split; [now apply T1|exact Y].
    + intros i k. rewrite Q. apply I6.
    + intros i k p X. apply I7. now apply T1.
  - assert (Nc : ~ In (i, k) rc) by (rewrite I4; congruence).
    assert (Ns : ~ In (i, k) rs) by (intro X; apply I5 in X as (p & X & _); rewrite X in N; discriminate).
    exists (rc ++ [(i, k)]), rs. rewrite app_nil_r. constructor; auto.
    + rewrite C1, I1, app_length, Nat.add_1_r. apply count_succ.
    + congruence.
    + split; [now apply NoDup_snoc|exact I3'].
    + intros j m. rewrite in_app_iff. destruct (Nat.eq_dec i j) as [<-|Ni]; [destruct (Nat.eq_dec k m) as [<-|Nk]|].
      * rewrite T1. cbn. tauto.
      * rewrite T2 by congruence. rewrite I4. cbn. split; [intros [X|[X|[]]]; [exact X|congruence]|auto].
      * rewrite T2 by congruence. rewrite I4. cbn. split; [intros [X|[X|[]]]; [exact X|congruence]|auto].
    + intros j m X. assert ((i, k) <> (j, m)) by congruence. rewrite T2 by assumption. now apply I5.
    + intros j m X. destruct (Nat.eq_dec i j) as [<-|Ni]; [destruct (Nat.eq_dec k m) as [<-|Nk]|].
      * rewrite T1 in X. discriminate.
      * rewrite T2 in X by congruence. now apply I6.
      * rewrite T2 in X by congruence. now apply I6.
    + intros j m p X. assert (D : (i, k) = (j, m) \/ (i, k) <> (j, m)).
      { destruct (Nat.eq_dec i j) as [<-|Ni]; [destruct (Nat.eq_dec k m) as [<-|Nk]|]; [now left|right; congruence..]. }
      destruct D as [D|D].
      * injection D as <- <-. rewrite T1 in X. injection X as <-.
        exists c, s, []. intros gp _. cbn [Proxy.prun]. rewrite place_new by exact Nc.
        rewrite I6 by exact N. now rewrite I1.
      * rewrite T2 in X by exact D.
        assert (In (j, m) rc) by (apply I4; rewrite X; reflexivity).
        rewrite place_old by assumption. now apply I7.
  - assert (Tk : In (i, k) rc) by (apply I4; rewrite T1; reflexivity).
    assert (Q : forall j m, talks (task_at w' j m) = talks (task_at w j m)).
    { intros j m. destruct (Nat.eq_dec i j) as [<-|Ni]; [destruct (Nat.eq_dec k m) as [<-|Nk]|].
      - now rewrite T1, T2.
      - now rewrite T3 by congruence.
      - now rewrite T3 by congruence. }
    assert (Ot : forall j m, (i, k) <> (j, m) -> conversation_of j m (L ++ map (WL i k) l') = conversation_of j m L).
    { intros j m D. rewrite conversation_app, (conversation_other K j m i k (map (WL i k) l')), app_nil_r; [reflexivity| |congruence].
      intros e X. apply in_map_iff in X as (e' & <- & _). eauto. }
    assert (Ow : conversation_of i k (L ++ map (WL i k) l') = conversation_of i k L ++ l').
    { now rewrite conversation_app, conversation_own. }
    assert (Nn : forall j m, talks (task_at w' j m) = false -> conversation_of j m (L ++ map (WL i k) l') = []).
    { intros j m. rewrite Q. intro X. rewrite Ot; [now apply I6|]. intro D. injection D as <- <-.
      rewrite T1 in X. discriminate. }
    destruct (greeted K Tc Ts p p') eqn:G.
    + assert (Gp : greeting_state K Tc Ts p = true /\ greeting_state K Tc Ts p' = false)
        by (destruct p, p'; try discriminate G; auto).
      destruct Gp as [Gp Gp'].
      assert (Ns : ~ In (i, k) rs).
      { intro X. apply I5 in X as (q & X & Y). rewrite T1 in X. injection X as <-. congruence. }
      exists rc, (rs ++ [(i, k)]). constructor; auto.
      * congruence.
      * rewrite C2, I2, app_length, Nat.add_1_r. apply count_succ.
      * split; [exact I3|now apply NoDup_snoc].
      * intros j m. now rewrite Q.
      * intros j m X. apply in_app_iff in X as [X|[X|[]]].
        -- assert ((i, k) <> (j, m)) by congruence. rewrite T3 by assumption. now apply I5.
        -- injection X as <- <-. eauto.
      * intros j m q X. assert (D : (i, k) = (j, m) \/ (i, k) <> (j, m)).
        { destruct (Nat.eq_dec i j) as [<-|Ni]; [destruct (Nat.eq_dec k m) as [<-|Nk]|]; [now left|right; congruence..]. }
        destruct D as [D|D].
        -- injection D as <- <-. rewrite T2 in X. injection X as <-.
           destruct (I7 i k p T1) as (cs & ss & acts & R). exists cs, ss, (acts ++ [a']). intros gp E.
           rewrite E by (apply in_or_app; right; now left). rewrite place_new by exact Ns. rewrite <- I2.
           rewrite prun_app, R by contradiction. cbn [Proxy.prun]. rewrite P, app_nil_r. now rewrite Ow.
        -- rewrite T3 in X by exact D. destruct (I7 j m q X) as (cs & ss & acts & R).
           exists cs, ss, acts. intros gp E. rewrite Ot by exact D. apply R. intro Y.
           rewrite <- (place_old rs (j, m) (i, k)) by exact Y. apply E, in_or_app. now left.
    + exists rc, rs. constructor; auto.
      * congruence.
      * congruence.
      * intros j m. now rewrite Q.
      * intros j m X. destruct (I5 j m X) as (q & Y & Z). 
        destruct (Nat.eq_dec i j) as [<-|Ni]; [destruct (Nat.eq_dec k m) as [<-|Nk]|].
        -- rewrite T1 in Y. injection Y as <-. exists p'. split; [exact T2|].
           pose proof (pstep_later K Tc Ts fuel (HGen (w_servers w) 0) p a' Z) as Y. now rewrite P in Y.
        -- rewrite T3 by congruence. eauto.
        -- rewrite T3 by congruence. eauto.
      * intros j m q X. assert (D : (i, k) = (j, m) \/ (i, k) <> (j, m)).
        { destruct (Nat.eq_dec i j) as [<-|Ni]; [destruct (Nat.eq_dec k m) as [<-|Nk]|]; [now left|right; congruence..]. }
        destruct D as [D|D].
        -- injection D as <- <-. rewrite T2 in X. injection X as <-.
           destruct (I7 i k p T1) as (cs & ss & acts & R). exists cs, ss, (acts ++ [a']). intros gp E.
           rewrite prun_app, R by exact E. cbn [Proxy.prun].
           rewrite (pstep_any _ _ _ _ _ P G gp), app_nil_r. now rewrite Ow.
        -- rewrite T3 in X by exact D. destruct (I7 j m q X) as (cs & ss & acts & R).
           exists cs, ss, acts. intros gp E. rewrite Ot by exact D. now apply R.
Qed.

Lemma ids_hold : forall cfg w L, program_runs fuel cfg w L -> exists rc rs, ids_inv w L rc rs.
Proof.
  intro cfg. apply runs_ind.
  - exists [], []. apply ids_new.
  - intros w L a w' l (rc & rs & I) H. eapply ids_step; eauto.
Qed.

Lemma count_inj : forall n m, (N.of_nat n < two64)%N -> (N.of_nat m < two64)%N -> count n = count m -> n = m.
Proof.
  intros n m H1 H2 E. unfold count in E. rewrite !N.mod_small in E by assumption. lia.
Qed.

Lemma place_lt : forall l x, In x l -> place x l < length l.
Proof. intros l x H. apply nth_error_Some. rewrite place_in by exact H. discriminate. Qed.

Lemma place_inj : forall l x y, In x l -> In y l -> place x l = place y l -> x = y.
Proof.
  intros l x y Hx Hy E. apply place_in in Hx, Hy. rewrite E in Hx. rewrite Hx in Hy. now injection Hy.
Qed.

Lemma own_generators : forall cfg w L, program_runs fuel cfg w L -> clients_at_most two64 w ->
  exists ids : nat -> nat -> N * option N,
    (forall i k p, task_at w i k = Some (TkTalk p) ->
       exists cs ss acts, forall gp,
         match snd (ids i k) with Some n => gp = HGen n 0 | None => True end ->
         prun gp (proxy_start K Tc Ts cs ss (HGen (fst (ids i k)) 0)) acts = (p, conversation_of i k L)) /\
    (forall i k p j m q, task_at w i k = Some (TkTalk p) -> task_at w j m = Some (TkTalk q) ->
       (i, k) <> (j, m) ->
       fst (ids i k) <> fst (ids j m) /\ forall n, snd (ids i k) = Some n -> snd (ids j m) <> Some n).
Proof.
  intros cfg w L R B. destruct (ids_hold cfg w L R) as (rc & rs & [_ _ [I3 I3'] I4 I5 _ I7]).
  assert (Dec : forall x : nat * nat, {In x rs} + {~ In x rs}).
  { intro x. apply in_dec. intros [a b] [c d]. destruct (Nat.eq_dec a c), (Nat.eq_dec b d); subst; auto; right; congruence. }
  assert (Lc : (N.of_nat (length rc) <= two64)%N).
  { apply B; [exact I3|]. intros [i k] X. apply I4, talks_some in X as (p & X). cbn [fst snd]. rewrite X. discriminate. }
  assert (Ls : (N.of_nat (length rs) <= two64)%N).
  { apply B; [exact I3'|]. intros [i k] X. apply I5 in X as (p & X & _). cbn [fst snd]. rewrite X. discriminate. }
  exists (fun i k => (count (place (i, k) rc), if Dec (i, k) then Some (count (place (i, k) rs)) else None)).
  split.
  - intros i k p X. destruct (I7 i k p X) as (cs & ss & acts & H). exists cs, ss, acts. intros gp E. apply H.
    cbn [snd] in E. intro Y. now destruct (Dec (i, k)).
  - intros i k p j m q X Y D.
    assert (X' : In (i, k) rc) by (apply I4; rewrite X; reflexivity).
    assert (Y' : In (j, m) rc) by (apply I4; rewrite Y; reflexivity).
    cbn [fst snd]. split.
    + intro E. apply count_inj in E; [apply D; eapply place_inj; eauto|..].
      * pose proof (place_lt _ _ X'). lia.
      * pose proof (place_lt _ _ Y'). lia.
    + intros n En Em. destruct (Dec (i, k)) as [X1|]; [|discriminate]. destruct (Dec (j, m)) as [Y1|]; [|discriminate].
      assert (E : count (place (i, k) rs) = count (place (j, m) rs)) by congruence.
      apply count_inj in E; [apply D; eapply place_inj; eauto|..].
      * pose proof (place_lt _ _ X1). lia.
      * pose proof (place_lt _ _ Y1). lia.
Qed.
End Handles.
