(** The example clients: their assertions hold, and what they do. *)
From Coq Require Import List NArith Bool PeanoNat Lia.
From Verif Require Import Base Types Codec Handle Receive ClientSend Client ServerSend Server
  SpecFraming SpecClient SpecServer ClientInv Stream StreamMachine SpecNet NetApp Apps SpecApps
  AppsProofs.
Import ListNotations.
Local Open Scope list_scope.

Lemma handle_eqb_refl : forall h, handle_eqb h h = true.
Proof. intro h. unfold handle_eqb. now rewrite !N.eqb_refl. Qed.

Lemma skipn_S : forall {A} n (l : list A) d ds, skipn n l = d :: ds -> skipn (S n) l = ds.
Proof.
  intros A n. induction n as [|n IH]; intros l d ds E.
  - cbn in E. now subst l.
  - destruct l as [|y l]; [discriminate|]. cbn in E. exact (IH l d ds E).
Qed.

Lemma c_calls_app : forall a b, c_calls (a ++ b) = c_calls a ++ c_calls b.
Proof. intros. apply filter_app. Qed.
Lemma greeted_snoc : forall A e, greeted (A ++ [ClNext (IEvent e)]) ->
  greeted A \/ exists x, e = CeGreetingReceived x.
Proof.
  intros A e (x & H). rewrite events_app in H. apply in_app_or in H as [H|[H|[]]].
  - left. now exists x.
  - right. eauto.
Qed.
Lemma no_calls_enqueued : forall A, c_calls A = [] -> enqueued A = [].
Proof. intro A. induction A as [|[] A IH]; cbn; intro H; try discriminate; auto. Qed.

Lemma begins_enqueued : forall cmd h A2 A, begins cmd h A2 A -> enqueued A2 = [] ->
  enqueued A = [(h, cmd)].
Proof.
  intros cmd h A2 A (A1 & x & -> & Hc & _) E. rewrite enqueued_app.
  rewrite (no_calls_enqueued _ Hc). cbn. now rewrite E.
Qed.
Lemma begins_snoc : forall cmd h A2 A e, begins cmd h A2 A -> begins cmd h (A2 ++ [e]) (A ++ [e]).
Proof.
  intros cmd h A2 A e (A1 & x & -> & Hc & Hg). exists A1, x. split; [|auto].
  now rewrite <- app_assoc.
Qed.
Lemma begins_now : forall cmd h A x, c_calls A = [] -> ~ greeted A ->
  begins cmd h [] ((A ++ [ClNext (IEvent (CeGreetingReceived x))]) ++ [ClEnqueue cmd h]).
Proof.
  intros cmd h A x Hc Hg. exists A, x. split; [|auto]. now rewrite <- app_assoc.
Qed.

Section Clients.
Context (K : Codecs).
Notation CM := (client_machine K).

(** What is true while the greeting is awaited. *)
Definition awaiting (A : list clog) : Prop := c_calls A = [] /\ ~ greeted A.
Lemma awaiting_snoc : forall A e, awaiting A -> (forall x, e <> CeGreetingReceived x) ->
  awaiting (A ++ [cev e]).
Proof.
  intros A e [H1 H2] He. split; [now rewrite c_calls_app, H1|].
  intro Hg. apply greeted_snoc in Hg as [Hg|(x & ->)]; [auto|now apply (He x)].
Qed.
Lemma awaiting_nil : awaiting [].
Proof. split; [reflexivity|]. intros (x & []). Qed.

Lemma no_terminals : forall A, terminals A = [] -> no_end A.
Proof.
  intros A Et. apply Forall_forall. intros y Hin.
  destruct (ends_segment y) eqn:Ey; [exfalso|reflexivity].
  apply in_split in Hin as (a & b & ->). rewrite terminals_app in Et.
  apply app_eq_nil in Et as [_ Et]. destruct y as [| | | | |[]|]; try discriminate.
  cbn in Ey, Et. unfold terminals in Et. cbn in Et. rewrite Ey in Et. discriminate.
Qed.

(** The command enqueued is resolved once, as its conversation says. *)
Lemma only_terminal : forall relaxed g A e h cm, creached K relaxed g (A ++ [cev e]) ->
  enqueued A = [(h, cm)] -> is_terminal e = true ->
  terminals A = [] /\ exists bs n, conversation K h cm bs (exchange A) n e.
Proof.
  intros relaxed g A e h cm R E Ht.
  assert (T0 : terminals (A ++ [cev e]) = terminals A ++ [e]).
  { rewrite terminals_app. cbn. now rewrite Ht. }
  destruct (r_done K relaxed g _ R (length (terminals A)) e) as (h1 & cm1 & E1 & bs & n & Hv).
  { rewrite T0, nth_error_app2, Nat.sub_diag by lia. reflexivity. }
  rewrite enqueued_app, E in E1. cbn in E1.
  destruct (terminals A) as [|t ts] eqn:Et; [|destruct ts; discriminate].
  injection E1 as <- <-. split; [reflexivity|]. exists bs, n. cbn in Hv.
  assert (X : exchange (segment 0 (A ++ [cev e])) = exchange A).
  { rewrite segment_app, Et. cbn. rewrite Ht, exchange_app.
    rewrite (no_end_segment A (no_terminals A Et)).
    destruct e; try discriminate; apply app_nil_r. }
  now rewrite X in Hv.
Qed.

(** ** examples/client.rs *)
Section ClientRs.
Context (login : bytes).
Notation P := (client_rs K login).
Notation cmd := (client_command login).

Definition client_J (p : cp) (A : list clog) : Prop :=
  match p with
  | CpGreeting => awaiting A
  | CpMain h => exists A2, begins cmd h A2 A /\ c_calls A2 = []
  end.
Definition client_G (A : list clog) : Prop :=
  c_calls A = [] \/ exists h A2, begins cmd h A2 A /\ c_calls A2 = [].

Lemma client_rs_event : forall relaxed g p A coin e, client_J p A -> client_G A ->
  creached K relaxed g (A ++ [cev e]) ->
  client_G (A ++ [cev e]) /\
  wp P (creached K relaxed g) ctyped client_J client_G (fun _ => False) (client_event K login p coin e) (A ++ [cev e]).
Proof.
  intros relaxed g p A coin e HJ HG R. destruct p as [|h].
  - split; [left; rewrite c_calls_app; now rewrite (proj1 (HJ : awaiting A))|].
      destruct e; cbn [client_event wp]; try (apply awaiting_snoc; [exact HJ|congruence]).
      cbn. intros r Hr _. destruct r; try contradiction. cbn in Hr. subst c.
      destruct HJ as [H1 H2].
      split; [right; exists h|]; exists []; (split; [apply begins_now; assumption|reflexivity]).
  - destruct HJ as (A2 & B & C).
      assert (B' : forall e, exists A2, begins cmd h A2 (A ++ [cev e]) /\ c_calls A2 = []).
      { intro e0. eexists. split; [apply begins_snoc, B|]. now rewrite c_calls_app, C. }
      split; [right; destruct (B' e) as (A3 & B3); now exists h, A3|].
      assert (Y : is_terminal e = true -> resolves h cmd e).
      { intro Ht. destruct (only_terminal relaxed g A e h cmd R) as (_ & bs & n & Hv); auto.
        - eapply begins_enqueued; [exact B|now apply no_calls_enqueued].
        - destruct Hv; cbn; auto. }
      destruct e; cbn [client_event wp]; try (apply B').
    + destruct (Y eq_refl) as [-> _]. unfold assert_same. rewrite handle_eqb_refl. apply B'.
    + destruct (Y eq_refl) as [-> _]. unfold assert_same. rewrite handle_eqb_refl. apply B'.
Qed.

Lemma client_rs_inv : forall relaxed g T fuel s f acts x (l : list (xlog CM)) st,
  xrun T CM fuel (@XState T CM s (client_new g relaxed) f) acts = (x, l) -> psteps P l st ->
  pinv P client_app (creached K relaxed g) ctyped client_J client_G (fun _ => False) st
    (flat_map client_app l) /\ client_G (flat_map client_app l).
Proof.
  intros relaxed g T fuel s f acts x l st. apply client_rule.
  - split; [apply awaiting_nil|now left].
  - intros p A coin e. apply client_rs_event.
  - intros p A r Hr HJ HG R.
    assert (Z : c_calls (client_app (XRet r : xlog CM)) = []).
    { destruct r; reflexivity. }
    destruct HG as [C|(h & A2 & (A1 & y & -> & C1 & C2) & C)].
    + left. now rewrite c_calls_app, C, Z.
    + right. exists h, (A2 ++ client_app (XRet r : xlog CM)). split.
      * exists A1, y. split; [|auto]. now rewrite <- app_assoc.
      * now rewrite c_calls_app, C, Z.
  - intros p A y b _ _ _ E. discriminate.
Qed.
End ClientRs.

(** ** examples/client_authenticate.rs *)
Section ClientAuthenticateRs.
Context (t : tag).
Notation P := (client_authenticate_rs K t).
Notation cmd := (authenticate_command t).

Definition given_data (h : handle) (n : nat) : list clog :=
  map (fun d => ClSetAuth d (inl h)) (answers authenticate_data n).

Definition auth_J (p : ap) (A : list clog) : Prop :=
  match p with
  | ApGreeting => awaiting A
  | ApMain ds => exists h A2, begins cmd h A2 A /\ c_calls A2 = given_data h (asks A2) /\
      terminals A = [] /\ ds = skipn (asks A2) authenticate_data
  end.
Definition auth_G (A : list clog) : Prop :=
  c_calls A = [] \/
  exists h A2 n, begins cmd h A2 A /\ c_calls A2 = given_data h n /\ n <= asks A2 <= S n.
Definition auth_Q (A : list clog) : Prop :=
  exists h A2 x, begins cmd h (A2 ++ [cev (CeAuthenticateStatusReceived h (CommandAuthenticate t AMLogin None) x)]) A /\
    c_calls A2 = given_data h (asks A2) /\ tagged_status t x.

Lemma answers_S : forall n, answers authenticate_data (S n) =
  answers authenticate_data n ++ [match skipn n authenticate_data with d :: _ => d | [] => ADCancel end].
Proof.
  intro n. unfold answers. generalize authenticate_data. intro ds0.
  enough (X : forall n ds k k', n <= k -> n < k' -> firstn (S n) (ds ++ repeat ADCancel k') =
    firstn n (ds ++ repeat ADCancel k) ++ [match skipn n ds with d :: _ => d | [] => ADCancel end])
    by (apply X; lia).
  clear n ds0. induction n as [|n IH]; intros ds k k' Hk Hk'.
  - destruct ds; [|reflexivity]. destruct k'; [lia|reflexivity].
  - destruct ds as [|d ds].
    + destruct k as [|k]; [lia|]. destruct k' as [|k']; [lia|].
      change (ADCancel :: firstn (S n) ([] ++ repeat ADCancel k') =
        (ADCancel :: firstn n ([] ++ repeat ADCancel k)) ++ [ADCancel]).
      rewrite (IH [] k k') by lia. destruct n; reflexivity.
    + change (d :: firstn (S n) (ds ++ repeat ADCancel k') =
        (d :: firstn n (ds ++ repeat ADCancel k)) ++ [match skipn n ds with d :: _ => d | [] => ADCancel end]).
      now rewrite (IH ds k k') by lia.
Qed.

Lemma asks_app : forall a b, asks (a ++ b) = asks a + asks b.
Proof. intros. unfold asks. now rewrite events_app, filter_app, app_length. Qed.

Lemma ask_ev : forall e, asks [cev e] =
  match e with CeAuthenticateContinuationRequestReceived _ _ => 1 | _ => 0 end.
Proof. destruct e; reflexivity. Qed.

Lemma given_not_enqueued : forall A h n, c_calls A = given_data h n -> enqueued A = [].
Proof.
  intros A h n. unfold given_data. generalize (answers authenticate_data n). intro ds. revert A.
  induction ds as [|d ds IH]; intros A E; [now apply no_calls_enqueued|].
  revert E. induction A as [|e A IHA]; [reflexivity|]. intro E.
  destruct e; cbn in E; try (injection E as E1 E2; discriminate); try discriminate.
  - injection E as -> -> E. cbn. now apply IH.
  - cbn. now apply IHA.
Qed.

Lemma client_authenticate_rs_inv : forall relaxed g T fuel s f acts x (l : list (xlog CM)) st,
  xrun T CM fuel (@XState T CM s (client_new g relaxed) f) acts = (x, l) -> psteps P l st ->
  pinv P client_app (creached K relaxed g) ctyped auth_J auth_G auth_Q st
    (flat_map client_app l) /\ auth_G (flat_map client_app l).
Proof.
  intros relaxed g T fuel s f acts x l st. apply client_rule.
  - split; [apply awaiting_nil|now left].
  - intros p A coin e HJ HG R. destruct p as [|ds].
    + split; [left; rewrite c_calls_app; now rewrite (proj1 (HJ : awaiting A))|].
      destruct e; cbn [pr_event client_authenticate_rs client_authenticate_event wp];
        try (apply awaiting_snoc; [exact HJ|congruence]).
      cbn. intros r Hr R1. destruct r; try contradiction. cbn in Hr. subst c.
      destruct HJ as [H1 H2].
      assert (B : begins cmd h [] ((A ++ [cev (CeGreetingReceived g0)]) ++ [ClEnqueue cmd h]))
        by (now apply begins_now).
      split; [right; exists h, [], 0; repeat split; [exact B|reflexivity|cbn; lia..]|].
      exists h, []. split; [exact B|]. split; [reflexivity|]. split; [|reflexivity].
      rewrite !terminals_app. cbn. rewrite app_nil_r.
      destruct (terminals A) as [|y ys] eqn:Et; [reflexivity|exfalso].
      destruct (r_resolved K relaxed g _ R 0 y) as (h1 & cm1 & E & _).
      { rewrite terminals_app, Et. reflexivity. }
      rewrite enqueued_app, (no_calls_enqueued _ H1) in E. discriminate.
    + destruct HJ as (h & A2 & B & C & Ht & ->).
      assert (E : enqueued A = [(h, cmd)])
        by (eapply begins_enqueued; [exact B|eapply given_not_enqueued; exact C]).
      assert (CC : c_calls (A2 ++ [cev e]) = given_data h (asks A2))
        by (now rewrite c_calls_app, C, app_nil_r).
      assert (S : asks A2 <= asks (A2 ++ [cev e]) <= Datatypes.S (asks A2)).
      { rewrite asks_app, ask_ev. destruct e; lia. }
      split; [right; exists h, (A2 ++ [cev e]), (asks A2); auto using begins_snoc|].
      assert (Y : is_terminal e = true ->
        exists x, e = CeAuthenticateStatusReceived h (CommandAuthenticate t AMLogin None) x /\ tagged_status t x).
      { intro He. destruct (only_terminal relaxed g A e h cmd R E He) as (_ & bs & n & Hv).
        destruct Hv as [[p Hp]|pre d post s0 [p Hp] _ _|ca line xs ds lines tl s0 Hc _ _ _ _ Hs
          |line tl s0 Hb _ _ _|line q dn Hb _ _]; try discriminate.
        exists s0. split; [|exact Hs].
        destruct ca. unfold command_of_authenticate, authenticate_command in Hc. cbn in Hc. congruence. }
      assert (N : is_terminal e = false -> (forall h q, e <> CeAuthenticateContinuationRequestReceived h q) ->
        auth_J (ApMain (skipn (asks A2) authenticate_data)) (A ++ [cev e])).
      { intros He Hq. assert (asks (A2 ++ [cev e]) = asks A2) as Ea.
        { rewrite asks_app, ask_ev. destruct e; try lia. now contradiction (Hq h0 r). }
        exists h, (A2 ++ [cev e]). rewrite Ea. repeat split; auto using begins_snoc.
        rewrite terminals_app, Ht. cbn. now rewrite He. }
      destruct e; cbn [pr_event client_authenticate_rs client_authenticate_event];
        try (apply N; [reflexivity|congruence]);
        try (destruct (Y eq_refl) as (x0 & Ex & Hx); discriminate).
      * (* continuation request *)
        rename r into q0. set (e := CeAuthenticateContinuationRequestReceived h0 q0) in *.
        set (d := match skipn (asks A2) authenticate_data with d :: _ => d | [] => ADCancel end).
        assert (Ea : asks (A2 ++ [cev e]) = Datatypes.S (asks A2)) by (rewrite asks_app; cbn; lia).
        assert (W : forall ds, ds = skipn (Datatypes.S (asks A2)) authenticate_data ->
          wp P (creached K relaxed g) ctyped auth_J auth_G auth_Q
            (set_authenticate_data K d (fun r => unwrapped r (Again (ApMain ds)))) (A ++ [cev e])).
        { intros ds Eds. cbn. intros r Hr R1. destruct r; try contradiction. cbn in Hr. subst d0.
          assert (Er : r = inl h).
          { rewrite (r_set_auth K relaxed g _ R1 _ _ _ eq_refl).
            pose proof (r_current K relaxed g _ R) as Rc.
            assert (Ec : current (A ++ [cev e]) = Some (h, cmd)).
            { unfold current. rewrite terminals_app, Ht, enqueued_app, E. reflexivity. }
            assert (Es : exchange (cur_seg (A ++ [cev e])) = exchange A ++ [XCont h0 q0]).
            { unfold cur_seg. rewrite terminals_app, Ht. cbn [app length terminals events filter is_terminal cev e].
              rewrite no_end_segment; [now rewrite exchange_app|].
              apply no_terminals. rewrite terminals_app, Ht. reflexivity. }
            rewrite Ec, Es in Rc. unfold last_exch. rewrite Es, map_app. cbn [map]. rewrite last_last.
            destruct Rc as (bs & n & Hv). f_equal. clear -Hv.
            remember (exchange A ++ [XCont h0 q0]) as X eqn:EX.
            assert (F : forall y, In y X -> match y with XCont h1 _ => h1 = h | _ => True end).
            { destruct Hv as [| | | |ca line xs ds lines tl Hc He Hr Hd Htl|line xs Hb He Hx|]; intros y Hin;
                try (now destruct Hin); try discriminate.
              destruct Hin as [<-|Hin]; [exact I|]. apply in_app_or in Hin as [Hin|Hin].
              - clear -Hr Hin. induction Hr as [|xs ds q d Hr IH]; [contradiction|].
                apply in_app_or in Hin as [Hin|[<-|[<-|[]]]]; [now apply IH|reflexivity|exact I].
              - destruct Htl as [->|[(q & ->)|(q & d & z & -> & _)]];
                  cbn in Hin; intuition subst; reflexivity || exact I. }
            apply (F (XCont h0 q0)). rewrite EX. apply in_or_app. right. now left. }
          subst r. cbn [unwrapped].
          assert (CG : c_calls ((A2 ++ [cev e]) ++ [ClSetAuth d (inl h)]) = given_data h (Datatypes.S (asks A2))).
          { rewrite c_calls_app, CC. unfold given_data. rewrite answers_S, map_app. reflexivity. }
          assert (BG : begins cmd h ((A2 ++ [cev e]) ++ [ClSetAuth d (inl h)]) ((A ++ [cev e]) ++ [ClSetAuth d (inl h)]))
            by auto using begins_snoc.
          assert (AG : asks ((A2 ++ [cev e]) ++ [ClSetAuth d (inl h)]) = Datatypes.S (asks A2))
            by (rewrite asks_app, Ea; cbn; lia).
          split.
          - right. do 3 eexists. split; [exact BG|]. split; [exact CG|]. rewrite AG. lia.
          - cbn [wp]. do 2 eexists. split; [exact BG|]. rewrite AG. split; [exact CG|]. split; [|exact Eds].
            rewrite !terminals_app, Ht. reflexivity. }
        unfold d in *. clear d.
        destruct (skipn (asks A2) authenticate_data) as [|d ds] eqn:Ed.
        -- apply W. symmetry. apply skipn_all2.
           assert (length (skipn (asks A2) authenticate_data) = 0) by (now rewrite Ed).
           rewrite skipn_length in H. lia.
        -- apply W. symmetry. eapply skipn_S. exact Ed.
      * (* status *)
        destruct (Y eq_refl) as (x0 & Ex & Hx). injection Ex as -> -> ->.
        cbn. do 3 eexists. split; [apply begins_snoc; exact B|]. split; assumption.
  - intros p A r Hr HJ HG R.
    assert (Z : c_calls (client_app (XRet r : xlog CM)) = [] /\ asks (client_app (XRet r : xlog CM)) = 0).
    { split; destruct r; try reflexivity. now contradiction (Hr e). }
    destruct Z as [Z1 Z2].
    destruct HG as [C|(h & A2 & n & (A1 & y & -> & C1 & C2) & C & D)].
    + left. now rewrite c_calls_app, C, Z1.
    + right. exists h, (A2 ++ client_app (XRet r : xlog CM)), n. split; [|split].
      * exists A1, y. split; [|auto]. now rewrite <- app_assoc.
      * now rewrite c_calls_app, C, Z1, app_nil_r.
      * rewrite asks_app, Z2. lia.
  - intros p A y b _ _ _ E. discriminate.
Qed.
End ClientAuthenticateRs.

(** ** examples/client_idle.rs *)
Notation P := (client_idle_rs K).

Definition idle_J (p : ip) (A : list clog) : Prop :=
  match p with
  | IpGreeting => awaiting A
  | IpIdle => exists h A2, begins idle_command h A2 A /\ only_done A2 /\ terminals A = []
  | IpStatus => exists h e A3, idled h e A3 A /\ forall y, In y A3 -> ~ status_with idle_tag y
  end.
Definition idle_G (A : list clog) : Prop :=
  c_calls A = [] \/ exists h A2, begins idle_command h A2 A /\ only_done A2.
Definition idle_Q (A : list clog) : Prop :=
  exists h e A3 y, idled h e (A3 ++ [y]) A /\ (forall z, In z A3 -> ~ status_with idle_tag z) /\
    status_with idle_tag y.

Lemma only_done_app : forall a b, only_done a -> only_done b -> only_done (a ++ b).
Proof. intros a b Ha Hb e H. rewrite c_calls_app in H. apply in_app_or in H as [H|H]; auto. Qed.
Lemma only_done_ev : forall e, only_done [ClNext e].
Proof. intros e y []. Qed.
Lemma only_done_nil : forall A, c_calls A = [] -> only_done A.
Proof. intros A E y. rewrite E. intros []. Qed.
Lemma only_done_enqueued : forall A, only_done A -> enqueued A = [].
Proof.
  intros A H. induction A as [|e A IH]; [reflexivity|].
  assert (H' : only_done A) by (intros y Hy; apply H; cbn; destruct (c_call e); [now right|exact Hy]).
  destruct e; try (cbn; now apply IH). exfalso. destruct (H (ClEnqueue c h)) as (r & E); [now left|discriminate].
Qed.
Lemma begins_parts : forall cmd h A2 A, begins cmd h A2 A -> terminals A = [] -> terminals A2 = [].
Proof.
  intros cmd h A2 A (A1 & x & -> & _) E. rewrite terminals_app in E. apply app_eq_nil in E as [_ E].
  exact E.
Qed.

Lemma idle_G_of : forall h e A3 A, idled h e A3 A -> idle_G A.
Proof.
  intros h e A3 A (A2 & B & D & _ & _ & C). right. exists h, (A2 ++ ClNext (IEvent e) :: A3). split; [exact B|].
  apply only_done_app; [exact D|]. intros y Hy. cbn in Hy. unfold c_calls in C. rewrite C in Hy. destruct Hy.
Qed.

Lemma idled_snoc : forall h e A3 A e', idled h e A3 A -> idled h e (A3 ++ [cev e']) (A ++ [cev e']).
Proof.
  intros h e A3 A e' (A2 & B & D & O & T & C). exists A2. split.
  - apply (begins_snoc _ _ _ _ (cev e')) in B. rewrite <- app_assoc in B. exact B.
  - repeat split; auto. now rewrite c_calls_app, C.
Qed.

Lemma client_idle_rs_inv : forall relaxed g T fuel s f acts x (l : list (xlog CM)) st,
  xrun T CM fuel (@XState T CM s (client_new g relaxed) f) acts = (x, l) -> psteps P l st ->
  pinv P client_app (creached K relaxed g) ctyped idle_J idle_G idle_Q st
    (flat_map client_app l) /\ idle_G (flat_map client_app l).
Proof.
  intros relaxed g T fuel s f acts x l st. apply client_rule.
  - split; [apply awaiting_nil|now left].
  - intros p A coin e HJ HG R. destruct p.
    + split; [left; rewrite c_calls_app; now rewrite (proj1 (HJ : awaiting A))|].
      destruct e; cbn [pr_event client_idle_rs client_idle_event wp];
        try (apply awaiting_snoc; [exact HJ|congruence]).
      cbn. intros r Hr R1. destruct r; try contradiction. cbn in Hr. subst c.
      destruct HJ as [H1 H2].
      assert (B : begins idle_command h [] ((A ++ [cev (CeGreetingReceived g0)]) ++ [ClEnqueue idle_command h]))
        by (now apply begins_now).
      split; [right; exists h, []; split; [exact B|now apply only_done_nil]|].
      exists h, []. split; [exact B|]. split; [now apply only_done_nil|].
      rewrite !terminals_app. cbn. rewrite app_nil_r.
      destruct (terminals A) as [|y ys] eqn:Et; [reflexivity|exfalso].
      destruct (r_resolved K relaxed g _ R 0 y) as (h1 & cm1 & E & _).
      { rewrite terminals_app, Et. reflexivity. }
      rewrite enqueued_app, (no_calls_enqueued _ H1) in E. discriminate.
    + destruct HJ as (h & A2 & B & D & Ht).
      assert (E : enqueued A = [(h, idle_command)])
        by (eapply begins_enqueued; [exact B|now apply only_done_enqueued]).
      split; [right; exists h, (A2 ++ [cev e]); split; [now apply begins_snoc|];
        apply only_done_app; [exact D|apply only_done_ev]|].
      assert (Y : is_terminal e = true -> idle_over h e).
      { intro He. destruct (only_terminal relaxed g A e h idle_command R E He) as (_ & bs & n & Hv).
        destruct Hv as [[p Hp]|pre d post s0 [p Hp] _ _|ca line xs ds lines tl s0 Hc _ _ _ _ Hs
          |line tl s0 Hb _ _ Hs|line q dn Hb _ _]; try discriminate.
        - right. eauto.
        - now left. }
      assert (N : is_terminal e = false -> idle_J IpIdle (A ++ [cev e])).
      { intro He. exists h, (A2 ++ [cev e]). split; [now apply begins_snoc|].
        split; [apply only_done_app; [exact D|apply only_done_ev]|].
        rewrite terminals_app, Ht. cbn. now rewrite He. }
      assert (S : is_terminal e = true -> idle_J IpStatus (A ++ [cev e])).
      { intro He. exists h, e, []. split; [|intros y []]. exists A2. repeat split; auto.
        - now apply begins_snoc.
        - eapply begins_parts; eauto. }
      destruct e; cbn [pr_event client_idle_rs client_idle_event]; try (apply N; reflexivity);
        try (apply S; reflexivity);
        try (destruct (Y eq_refl) as [Y1|(z & Y1 & _)]; discriminate).
    + destruct HJ as (h & e0 & A3 & I & F).
      assert (I' : idled h e0 (A3 ++ [cev e]) (A ++ [cev e])) by (now apply idled_snoc).
      split; [eapply idle_G_of; exact I'|].
      assert (N : ~ status_with idle_tag (cev e) -> idle_J IpStatus (A ++ [cev e])).
      { intro Hn. exists h, e0, (A3 ++ [cev e]). split; [exact I'|].
        intros y Hy. apply in_app_or in Hy as [Hy|[<-|[]]]; auto. }
      destruct e; cbn [pr_event client_idle_rs client_idle_event];
        try (apply N; intros (b & Hb); discriminate).
      destruct s0 as [|t b|]; try (apply N; intros (b' & Hb); discriminate).
      destruct (bytes_eqb t idle_tag) eqn:Et.
      * apply bytes_eqb_eq in Et. subst t. exists h, e0, A3. eexists. split; [exact I'|]. split; [exact F|].
        eexists. reflexivity.
      * apply N. intros (b' & Hb). injection Hb as -> ->. 
        rewrite (proj2 (bytes_eqb_eq _ _) eq_refl) in Et. discriminate.
  - intros p A r Hr HJ HG R.
    assert (Z : c_calls (client_app (XRet r : xlog CM)) = []).
    { destruct r; reflexivity. }
    destruct HG as [C|(h & A2 & (A1 & y & -> & C1 & C2) & C)].
    + left. now rewrite c_calls_app, C, Z.
    + right. exists h, (A2 ++ client_app (XRet r : xlog CM)). split.
      * exists A1, y. split; [|auto]. now rewrite <- app_assoc.
      * apply only_done_app; [exact C|now apply only_done_nil].
  - intros p A y b HJ _ _ E. destruct p; try discriminate. injection E as <-. cbn.
    destruct HJ as (h & A2 & B & D & Ht). intros r Hr R1. destruct r; try contradiction.
    assert (D' : only_done (A2 ++ [ClSetDone r])).
    { apply only_done_app; [exact D|]. intros z [<-|[]]. eauto. }
    split.
    + right. exists h, (A2 ++ [ClSetDone r]). split; [now apply begins_snoc|exact D'].
    + exists h, (A2 ++ [ClSetDone r]). split; [now apply begins_snoc|]. split; [exact D'|].
      now rewrite terminals_app, Ht.
Qed.
End Clients.
