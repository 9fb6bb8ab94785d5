(** examples/client_std.rs: its assertions hold; at the end of input it spins. *)
From Coq Require Import List NArith Bool PeanoNat Lia.
From Verif Require Import Base Types Codec Handle Receive ClientSend Client ServerSend Server
  SpecFraming SpecClient ClientRecv ClientAbs ClientInv ClientDet ClientThms Stream StreamMachine StreamState
  NetSystem SpecNet NetApp Apps SpecApps AppsProofs AppsClient.
Import ListNotations.
Local Open Scope list_scope.

Section Std.
Context (K : Codecs) (login : bytes).
Notation CM := (client_machine K).
Notation P := (client_rs K login).
Notation ststeps := (ststeps K login).

Notation alone := (alone K).
Notation eof_turn := (eof_turn K).
Notation eof_turns := (eof_turns K).
Notation at_eof := (at_eof K).

Lemma alone_snoc : forall relaxed g l e c, alone relaxed g (l ++ [e]) c ->
  exists c1, alone relaxed g l c1 /\ call_run CM c1 (calls [e]) = Some (c, call_entries [e]).
Proof. intros relaxed g l e c H. exact (call_run_snoc _ _ _ _ _ H). Qed.

(** Before the greeting there is no output. *)
Lemma alone_output : forall relaxed g l b c, alone relaxed g (l ++ [@XNext CM (MOutput b)]) c ->
  greeted (flat_map c_ev l).
Proof.
  intros relaxed g l b c H. apply alone_snoc in H as (c1 & H1 & H2).
  unfold alone in H1. apply client_call_run in H1 as (lc & R & V).
  apply client_call_run in H2 as (l2 & R2 & V2).
  assert (Rn : ran K relaxed g (map client_cop (calls l) ++ map client_cop (calls [@XNext CM (MOutput b)])) c (lc ++ l2)).
  { unfold ran. clear -R R2. revert R. generalize (client_new g relaxed). revert lc.
    induction (map client_cop (calls l)) as [|p ops IH]; intros lc c0 R.
    - cbn in R. injection R as -> <-. exact R2.
    - cbn [app client_run] in *. destruct (client_step K c0 p) as [[c2|] la]; [|discriminate].
      destruct (client_run K c2 ops) as [oc lb] eqn:E. injection R as -> <-.
      rewrite (IH _ _ E). now rewrite app_assoc. }
  assert (X : exists gs, l2 = map ClRx gs ++ [ClNext (IOutput b)]).
  { clear -R2 V2. cbn [calls map client_cop client_run client_step] in R2.
    destruct (client_next K c1) as [[c2 gs] r]. destruct (c_is_panic r); [discriminate|].
    injection R2 as _ <-. exists gs. rewrite app_nil_r in *. f_equal. f_equal. f_equal.
    rewrite flat_map_app in V2.
    replace (flat_map (client_view (K := K)) (map ClRx gs)) with (@nil (xlog CM)) in V2
      by (clear; induction gs; auto).
    cbn in V2. destruct r; cbn in V2; try discriminate. now injection V2 as ->. }
  destruct X as (gs & ->). rewrite app_assoc in Rn.
  destruct (greeting_first _ _ _ _ _ _ Rn) as (G & _).
  destruct (G _ _ _ eq_refl) as (x & Hin). exists x.
  replace (flat_map c_ev l) with (filter c_shown lc).
  - rewrite shown_events. rewrite events_app in Hin. apply in_app_or in Hin as [Hin|Hin]; [exact Hin|].
    exfalso. clear -Hin. induction gs; auto.
  - symmetry. assert (E2 : flat_map c_ev (call_entries l) = flat_map c_ev l).
    { clear. induction l as [|[] l IH]; cbn; now rewrite ?IH. }
    rewrite <- E2, <- V. clear.
    induction lc as [|e lc IH]; [reflexivity|]. cbn [flat_map]. rewrite flat_map_app, IH.
    destruct e as [| | | | |[]|]; reflexivity.
Qed.

(** ** The program *)
Definition st_inv (relaxed : bool) (g : hgen) (st : ststate K) (A : list clog) : Prop :=
  match st with
  | StNext p | StRead p | StGive p _ => client_J login p A
  | StWrite p b => client_J login p A /\ p <> CpGreeting
  | StIn o k => wp P (creached K relaxed g) ctyped (client_J login) (client_G login) (fun _ => False) (Does (o : m_op CM) k) A
  | StEnd EndReturned | StEnd EndFailed | StEnd EndPanicked => False
  | StEnd (EndError _) => True
  end.

Lemma st_wp_resume : forall relaxed g b A,
  wp P (creached K relaxed g) ctyped (client_J login) (client_G login) (fun _ => False) b A ->
  st_inv relaxed g (st_resume K b) A.
Proof. intros relaxed g b A H. destruct b; exact H. Qed.

Lemma client_std_inv : forall relaxed g l st, ststeps l st -> forall c, alone relaxed g l c ->
  st_inv relaxed g st (flat_map c_ev l) /\ client_G login (flat_map c_ev l).
Proof.
  intros relaxed g l st S. induction S as [|l st e st' S IH S1]; intros c Hc.
  - split; [apply awaiting_nil|now left].
  - destruct (c_alone_reached K relaxed g _ _ _ Hc) as [Re Ty].
    assert (Out : forall b, e = @XNext CM (MOutput b) -> greeted (flat_map c_ev l)).
    { intros b ->. eapply alone_output; exact Hc. }
    apply alone_snoc in Hc as (c1 & Hc1 & _).
    destruct (IH _ Hc1) as [I HG]. rewrite flat_map_app in *. cbn [flat_map] in *. rewrite app_nil_r in *.
    destruct S1 as [p e|p|p b|p e|p b Hb|p|p b|p b|p b|o k r]; cbn [c_ev] in *; rewrite ?app_nil_r in *;
      try (split; [exact I|exact HG]).
    + destruct (client_rs_event K login relaxed g p _ false e I HG Re) as [G1 W].
      split; [now apply st_wp_resume|exact G1].
    + split; [|exact HG]. destruct p as [|h].
      * exfalso. apply (proj2 (I : awaiting _)). eapply Out. reflexivity.
      * split; [exact I|discriminate].
    + split; [exact Logic.I|].
      destruct HG as [C|(h & A2 & (A1 & y & E & C1 & C2) & C)].
      * left. now rewrite c_calls_app, C.
      * right. exists h, (A2 ++ [ClNext (IError e)]). split.
        -- exists A1, y. split; [|auto]. rewrite E. now rewrite <- app_assoc.
        -- now rewrite c_calls_app, C.
    + split; [exact Logic.I|exact HG].
    + split; [apply I|exact HG].
    + split; [exact Logic.I|exact HG].
    + destruct (I r) as [G1 W]; [apply Ty, in_or_app; right; now left|exact Re|].
      split; [now apply st_wp_resume|exact G1].
Qed.

(** ** End of input *)
Lemma need_again : forall relaxed a gs a', anext K relaxed a gs INeedMore a' ->
  anext K relaxed a' [] INeedMore a'.
Proof.
  intros relaxed a gs a' H. remember INeedMore as r eqn:E. revert E.
  induction H as [a r a' H|a m r a' H|a m a1 gs r a' H _ IH|a a' H]; intro Er;
    try discriminate; auto; subst r.
  - constructor.
    assert (a' = quiesce K a) as -> by (inversion H; subst; reflexivity).
    rewrite quiesce_idem. inversion H; subst; assumption.
  - inversion H.
Qed.

(** Further calls with no input need more input. *)
Definition dry (relaxed : bool) (c : client) : Prop :=
  exists a, crel K relaxed c a /\ anext K relaxed a [] INeedMore a.

Lemma dry_next : forall relaxed c c' r, dry relaxed c -> m_next CM c = Some (c', r) ->
  r = MNeedMore /\ dry relaxed c'.
Proof.
  intros relaxed c c' r (a & R & N) H. cbn [m_next client_machine] in H.
  destruct (client_next K c) as [[c2 gs] r2] eqn:E.
  destruct (client_next_det K relaxed _ _ _ _ _ _ _ _ R N E) as (_ & -> & R2).
  cbn in H. injection H as <- <-. split; [reflexivity|]. exists a. split; [apply R2; discriminate|exact N].
Qed.

Lemma dry_goes : forall relaxed c, dry relaxed c -> exists c', m_next CM c = Some (c', MNeedMore) /\ dry relaxed c'.
Proof.
  intros relaxed c D. pose proof D as (a & R & N). cbn [m_next client_machine].
  destruct (client_next K c) as [[c2 gs] r2] eqn:E.
  destruct (client_next_det K relaxed _ _ _ _ _ _ _ _ R N E) as (_ & -> & R2).
  exists c2. split; [reflexivity|]. exists a. split; [apply R2; discriminate|exact N].
Qed.

Lemma dry_give : forall relaxed c, dry relaxed c -> exists c', m_enqueue CM c [] = Some c' /\ dry relaxed c'.
Proof.
  intros relaxed c (a & R & N). destruct (enqueue_input_sim K relaxed c a [] R) as (c' & E & R').
  rewrite a_add_nil in R'. exists c'. split; [|now exists a]. cbn in *. now rewrite E.
Qed.

Lemma alone_rel : forall relaxed g l c, alone relaxed g l c -> exists a, crel K relaxed c a.
Proof.
  intros relaxed g l c H. apply client_call_run in H as (lc & R & _).
  apply (client_run_new K relaxed) in R as (a & _ & R). now exists a.
Qed.

Lemma needs_dry : forall relaxed g l c, alone relaxed g (l ++ [@XNext CM MNeedMore]) c -> dry relaxed c.
Proof.
  intros relaxed g l c H. apply alone_snoc in H as (c1 & H1 & H2).
  apply alone_rel in H1 as (a & R). cbn [calls call_run call_step m_next client_machine call_entries] in H2.
  destruct (client_next K c1) as [[c2 gs] r2] eqn:E.
  destruct (client_next_sim K relaxed _ _ _ _ _ R E) as (a' & N & _ & _ & R2).
  destruct (mres_of r2) as [r|] eqn:Er; [|discriminate]. injection H2 as -> ->.
  destruct r2; try discriminate. apply need_again in N. exists a'. split; [apply R2; discriminate|exact N].
Qed.

Lemma alone_app : forall relaxed g l c e c', alone relaxed g l c ->
  call_run CM c (calls [e]) = Some (c', call_entries [e]) -> alone relaxed g (l ++ [e]) c'.
Proof.
  intros relaxed g l c e c' H E. unfold alone in *.
  rewrite calls_app, call_entries_app, call_run_app, H, E. reflexivity.
Qed.

Lemma at_read_dry : forall relaxed g l p c, ststeps l (StRead p) -> alone relaxed g l c -> dry relaxed c.
Proof.
  intros relaxed g l p c S H. inversion S as [|l0 st e st' S0 S1]; subst.
  inversion S1; subst; try (destruct (client_event K login p0 false e0); discriminate);
    try (destruct p0; discriminate); try (destruct (k r); discriminate).
  eapply needs_dry; exact H.
Qed.

(** One turn of the loop at the end of input. *)
Lemma eof_can : forall relaxed g l p c, ststeps l (StRead p) -> alone relaxed g l c -> forall n,
  exists c', ststeps (l ++ eof_turns n) (StRead p) /\ alone relaxed g (l ++ eof_turns n) c'.
Proof.
  intros relaxed g l p c S H n.
  enough (exists c', ststeps (l ++ eof_turns n) (StRead p) /\ alone relaxed g (l ++ eof_turns n) c' /\ dry relaxed c')
    as (c' & ? & ? & _) by eauto.
  induction n as [|n (c1 & S1 & H1 & D1)].
  - cbn. rewrite app_nil_r. exists c. split; [exact S|]. split; [exact H|]. eapply at_read_dry; eauto.
  - destruct (dry_give _ _ D1) as (c2 & E2 & D2). destruct (dry_goes _ _ D2) as (c3 & E3 & D3).
    exists c3. cbn [eof_turns]. unfold eof_turn.
    replace (l ++ eof_turns n ++ _) with
      ((((l ++ eof_turns n) ++ [@XRead CM []]) ++ [@XGive CM []]) ++ [@XNext CM MNeedMore])
      by now rewrite <- !app_assoc.
    split; [|split; [|exact D3]].
    + econstructor; [|apply sts_need_more]. econstructor; [|apply sts_give].
      econstructor; [exact S1|]. apply sts_read. cbn. unfold read_size. lia.
    + eapply alone_app; [eapply alone_app; [eapply alone_app; [exact H1|reflexivity]|]|].
      * cbn [calls call_run call_step]. rewrite E2. reflexivity.
      * cbn [calls call_run call_step]. rewrite E3. reflexivity.
Qed.

(** Nothing but that turn is possible while reads return nothing and do not fail. *)
Inductive ststeps_from (st0 : ststate K) : list (xlog CM) -> ststate K -> Prop :=
| ssf_start : ststeps_from st0 [] st0
| ssf_step : forall l st e st', ststeps_from st0 l st -> ststep K login st e st' -> ststeps_from st0 (l ++ [e]) st'.

(** The program is deterministic: the log determines where it is. *)
Lemma ststep_det : forall st e st1 st2, ststep K login st e st1 -> ststep K login st e st2 -> st1 = st2.
Proof.
  intros st e st1 st2 H1 H2. destruct H1; inversion H2; subst; try reflexivity.
Qed.

Lemma ststeps_app : forall l l2 st, ststeps (l ++ l2) st -> exists st1, ststeps l st1 /\ ststeps_from st1 l2 st.
Proof.
  intros l l2. induction l2 as [|e l2 IH] using rev_ind; intros st H.
  - rewrite app_nil_r in H. exists st. split; [exact H|constructor].
  - rewrite app_assoc in H. inversion H as [E|l0 st1 e0 st0 S S1 E]; [now destruct (l ++ l2)|].
    apply app_inj_tail in E as [-> ->]. destruct (IH _ S) as (st2 & A & B). exists st2. split; [exact A|].
    econstructor; eauto.
Qed.

Lemma ststeps_det : forall l st1 st2, ststeps l st1 -> ststeps l st2 -> st1 = st2.
Proof.
  intros l. induction l as [|e l IH] using rev_ind; intros st1 st2 H1 H2.
  - inversion H1 as [|? ? ? ? ? ? E]; [|now destruct l]. inversion H2 as [|? ? ? ? ? ? E]; [|now destruct l]. reflexivity.
  - inversion H1 as [E|l0 sa e0 st0 S S1 E]; [now destruct l|]. apply app_inj_tail in E as [-> ->].
    inversion H2 as [E|l0 sb e0 st3 S2 S3 E]; [now destruct l|]. apply app_inj_tail in E as [-> ->].
    rewrite (IH _ _ S S2) in S1. eapply ststep_det; eauto.
Qed.

Lemma eof_only : forall relaxed g l p, ststeps l (StRead p) -> forall l2 st c,
  (forall c0, alone relaxed g l c0 -> dry relaxed c0) ->
  forall S : ststeps_from (StRead p) l2 st,
  alone relaxed g (l ++ l2) c -> Forall at_eof l2 ->
  dry relaxed c /\ exists n,
    (st = StRead p /\ l2 = eof_turns n) \/
    (st = StGive p [] /\ l2 = eof_turns n ++ [XRead []]) \/
    (st = StNext p /\ l2 = eof_turns n ++ [XRead []; XGive []]).
Proof.
  intros relaxed g l p S0 l2 st c D S. revert c.
  induction S as [|l2 st e st' S IH S1]; intros c H F.
  - rewrite app_nil_r in H. split; [auto|]. exists 0. left. now split.
  - rewrite app_assoc in H. apply alone_snoc in H as (c1 & H1 & H2).
    apply Forall_app in F as [F1 F2]. inversion F2 as [|? ? F3 _]; subst.
    destruct (IH _ H1 F1) as (Dc & n & [[-> ->]|[[-> ->]|[-> ->]]]); clear IH.
    + inversion S1; subst; [|contradiction F3]. cbn in F3. subst b.
      cbn in H2. injection H2 as <-. split; [exact Dc|]. exists n. right. left. now split.
    + inversion S1; subst. destruct (dry_give _ _ Dc) as (c2 & E2 & D2).
      cbn [calls call_run call_step] in H2. rewrite E2 in H2. injection H2 as <-.
      split; [exact D2|]. exists n. right. right. split; [reflexivity|]. now rewrite <- app_assoc.
    + destruct (dry_goes _ _ Dc) as (c2 & E2 & D2).
      inversion S1; subst; cbn [calls call_run call_step] in H2; rewrite E2 in H2; try discriminate.
      injection H2 as <-.
      split; [exact D2|]. exists (Datatypes.S n). left. split; [reflexivity|]. cbn [eof_turns]. now rewrite <- app_assoc.
Qed.

Lemma eof_spins : forall relaxed g l p l2 st c, ststeps l (StRead p) -> ststeps (l ++ l2) st ->
  alone relaxed g (l ++ l2) c -> Forall at_eof l2 ->
  exists n,
    (st = StRead p /\ l2 = eof_turns n) \/
    (st = StGive p [] /\ l2 = eof_turns n ++ [XRead []]) \/
    (st = StNext p /\ l2 = eof_turns n ++ [XRead []; XGive []]).
Proof.
  intros relaxed g l p l2 st c S S2 H F. apply ststeps_app in S2 as (st1 & S1 & S2).
  rewrite (ststeps_det _ _ _ S1 S) in S2.
  eapply eof_only; eauto. intros c0 H0. eapply at_read_dry; eauto.
Qed.
End Std.
